(** * PropTriHeap: C89 *)
From Verif Require Import Base Alg SRMatrix Nd Coo TriView CooFacts Inst ArrayView ViewSpec PropViews PropRaw PropTriView TriHeap.
From Coq Require Import ZArith Qcanon.
Open Scope nat_scope.

(** ** What a raw triangular view denotes: as [raw_mat], with one row start for each row *)
Definition raw_view {F} (bs : nat) (hi : heap nat) (hf : heap F) (r : raw) : option (srmat F) :=
  a ← arr hi (r_browptr r) (r_nbrows r);
  b ← arr hi (r_bcolind r) (r_nbstored r);
  c ← arr hf (r_vals r) (r_nbstored r * (bs * bs));
  d ← arr hi (r_diagind r) (r_nbrows r);
  e ← arr hi (r_browendptr r) (r_nbrows r);
  Some (SR a b c d e (r_nbrows r) (r_nnzb r) (r_nbstored r)).
(** [V] is the lower ([low]) or upper triangle of [M] *)
Definition is_triangle {F} {O : SOps F} (low : bool) (M V : srmat F) : Prop :=
  nbrows V = nbrows M /\ nnzb V = length (visible V) /\
  forall so bs I J, 0 < bs -> I < nbrows M * bs ->
    vdense so bs V I J = (if (if low then J / bs <=? I / bs else I / bs <=? J / bs) then bdense so bs M I J else s0).
(** heap [h'] has the blocks of [h], unchanged; and nothing else allocated *)
Definition keeps {T} (h h' : heap T) : Prop := forall b, b < length h -> h' !! b = h !! b.
Definition only {T} (h h' : heap T) : Prop := keeps h h' /\ forall b, live h' b -> b < length h.

(** ** The loops on the heap do what the loops on lists do *)
Lemma for_n_sim {A B} (f : A -> B) (body : nat -> A -> res A) (body' : nat -> B -> res B) n : forall i s s1,
  (forall i s s1, body i s = Ok s1 -> body' i (f s) = Ok (f s1)) -> for_n n i body s = Ok s1 -> for_n n i body' (f s) = Ok (f s1).
Proof.
  induction n as [|n IH]; intros i s s1 H E; simpl in *; [congruence|]. apply bind_Ok in E as (s' & E1 & E2).
  rewrite (H _ _ _ E1). simpl. apply IH; auto.
Qed.
Lemma set_inv' {A} (l l' : list A) i a : set l i a = Ok l' -> i < length l /\ l' = <[i := a]> l.
Proof. unfold set. destruct (decide _); [|discriminate]. intros E. injection E as <-. auto. Qed.

Section Rows.
  Context (hi : heap nat).
  Definition two (s : list nat * list nat * Z) : heap nat * Z := let '(a, e, z) := s in (hi ++ [Some a; Some e], z).
  Lemma write0 a e i x : i < length a -> hwrite (hi ++ [Some a; Some e]) (Some (length hi, 0)) i x = Ok (hi ++ [Some (<[i := x]> a); Some e]).
  Proof. intros H. pose proof (hwrite_new hi [Some a; Some e] 0 a i x eq_refl H) as E. rewrite Nat.add_0_r in E. exact E. Qed.
  Lemma write1 a e i x : i < length e -> hwrite (hi ++ [Some a; Some e]) (Some (length hi + 1, 0)) i x = Ok (hi ++ [Some a; Some (<[i := x]> e)]).
  Proof. intros H. exact (hwrite_new hi [Some a; Some e] 1 e i x eq_refl H). Qed.

  Lemma lower_sim pb pd n1 n2 (lb ld : list nat) n a e : arr hi pb n1 = Some lb -> arr hi pd n2 = Some ld -> forall s1,
    for_ 0 n (fun irow s =>
      let! b := get lb irow in
      let '(lrowptr, lrowendptr, nnz) := s in
      let! lrowptr := set lrowptr irow b in
      let! d := get ld irow in
      let! lrowendptr := set lrowendptr irow (d + 1) in
      Ok (lrowptr, lrowendptr, (nnz + (Z.of_nat d - Z.of_nat b + 1))%Z)) (a, e, 0%Z) = Ok s1 ->
    lower_rows n pb pd (Some (length hi, 0)) (Some (length hi + 1, 0)) (hi ++ [Some a; Some e]) = Ok (two s1).
  Proof.
    intros Hb Hd s1 E. unfold lower_rows, for_ in *. change (hi ++ [Some a; Some e], 0%Z) with (two (a, e, 0%Z)).
    revert E. apply for_n_sim. clear s1. intros i [[p r] z] s1 E. cbn [two].
    apply bind_Ok in E as (b & E1 & E). apply bind_Ok in E as (p' & E2 & E). apply bind_Ok in E as (d & E3 & E). apply bind_Ok in E as (r' & E4 & E).
    injection E as <-. apply get_Some in E1, E3. apply set_inv' in E2 as [L2 ->], E4 as [L4 ->].
    rewrite (hread_arr hi _ pb n1 lb i b Hb E1). cbn [bind]. rewrite write0 by exact L2. cbn [bind].
    rewrite (hread_arr hi _ pd n2 ld i d Hd E3). cbn [bind]. rewrite write1 by exact L4. reflexivity.
  Qed.
  Lemma upper_sim pd pe n1 n2 (ld le : list nat) n a e : arr hi pd n1 = Some ld -> arr hi pe n2 = Some le -> forall s1,
    for_ 0 n (fun irow s =>
      let! d := get ld irow in
      let '(urowptr, urowendptr, nnz) := s in
      let! urowptr := set urowptr irow d in
      let! e := get le irow in
      let! urowendptr := set urowendptr irow e in
      Ok (urowptr, urowendptr, (nnz + (Z.of_nat e - Z.of_nat d))%Z)) (a, e, 0%Z) = Ok s1 ->
    upper_rows n pd pe (Some (length hi, 0)) (Some (length hi + 1, 0)) (hi ++ [Some a; Some e]) = Ok (two s1).
  Proof.
    intros Hd He s1 E. unfold upper_rows, for_ in *. change (hi ++ [Some a; Some e], 0%Z) with (two (a, e, 0%Z)).
    revert E. apply for_n_sim. clear s1. intros i [[p r] z] s1 E. cbn [two].
    apply bind_Ok in E as (d & E1 & E). apply bind_Ok in E as (p' & E2 & E). apply bind_Ok in E as (x & E3 & E). apply bind_Ok in E as (r' & E4 & E).
    injection E as <-. apply get_Some in E1, E3. apply set_inv' in E2 as [L2 ->], E4 as [L4 ->].
    rewrite (hread_arr hi _ pd n1 ld i d Hd E1). cbn [bind]. rewrite write0 by exact L2. cbn [bind].
    rewrite (hread_arr hi _ pe n2 le i x He E3). cbn [bind]. rewrite write1 by exact L4. reflexivity.
  Qed.
  Lemma new_blocks g1 g2 n : (hi ++ [Some (g1 <$> seq 0 n)]) ++ [Some (g2 <$> seq 0 n)] = hi ++ [Some (alloc g1 n); Some (alloc g2 n)].
  Proof. rewrite <- app_assoc. reflexivity. Qed.
  Lemma arr_app X p n (l : list nat) : arr hi p n = Some l -> arr (hi ++ X) p n = Some l.
  Proof.
    intros E. rewrite <- E. apply arr_agree. intros b o ->. simpl in E. destruct (hi !! b) eqn:Eb; [|discriminate].
    apply lookup_app_l_Some, Eb.
  Qed.
  Lemma arr_new0 a e n : length a = n -> arr (hi ++ [Some a; Some e]) (Some (length hi, 0)) n = Some a.
  Proof. intros <-. unfold arr. rewrite (list_lookup_middle hi [Some e] (Some a) (length hi) eq_refl). rewrite decide_True by lia. rewrite drop_0, firstn_all. reflexivity. Qed.
  Lemma arr_new1 a e n : length e = n -> arr (hi ++ [Some a; Some e]) (Some (length hi + 1, 0)) n = Some e.
  Proof. intros <-. unfold arr. rewrite lookup_app_r, Nat.add_comm, Nat.add_sub by lia. cbn [lookup list_lookup]. rewrite decide_True by lia. rewrite drop_0, firstn_all. reflexivity. Qed.
  Lemma keeps_app X : keeps hi (hi ++ X).
  Proof. intros b Hb. apply lookup_app_l, Hb. Qed.
  Lemma freed a e :
    only hi (<[length hi + 1 := None]> (<[length hi := None]> (hi ++ [Some a; Some e]))) /\
    only hi (<[length hi := None]> (<[length hi + 1 := None]> (hi ++ [Some a; Some e]))).
  Proof.
    assert (forall b, b < length hi -> (hi ++ [Some a; Some e]) !! b = hi !! b) as K by (intros b Hb; apply lookup_app_l, Hb).
    assert (length (hi ++ [Some a; Some e]) = length hi + 2) as L by (rewrite app_length; reflexivity).
    split; split.
    - intros b Hb. rewrite !list_lookup_insert_ne by lia. auto.
    - intros b [l Hl]. pose proof (lookup_lt_Some _ _ _ Hl) as Hlt. rewrite !insert_length, L in Hlt.
      destruct (decide (b = length hi + 1)) as [->|]; [rewrite list_lookup_insert in Hl by (rewrite insert_length; lia); discriminate|].
      destruct (decide (b = length hi)) as [->|]; [|lia]. rewrite list_lookup_insert_ne in Hl by lia. rewrite list_lookup_insert in Hl by lia. discriminate.
    - intros b Hb. rewrite !list_lookup_insert_ne by lia. auto.
    - intros b [l Hl]. pose proof (lookup_lt_Some _ _ _ Hl) as Hlt. rewrite !insert_length, L in Hlt.
      destruct (decide (b = length hi)) as [->|]; [rewrite list_lookup_insert in Hl by (rewrite insert_length; lia); discriminate|].
      destruct (decide (b = length hi + 1)) as [->|]; [|lia]. rewrite list_lookup_insert_ne in Hl by lia. rewrite list_lookup_insert in Hl by lia. discriminate.
  Qed.
End Rows.

Lemma for_n_keep {A} (P : A -> Prop) (body : nat -> A -> res A) n : forall i s s1,
  (forall i s s1, P s -> body i s = Ok s1 -> P s1) -> P s -> for_n n i body s = Ok s1 -> P s1.
Proof.
  induction n as [|n IH]; intros i s s1 H Hs E; simpl in *; [congruence|]. apply bind_Ok in E as (s' & E1 & E2). apply (IH _ s' s1 H (H _ _ _ Hs E1) E2).
Qed.
Definition lens (n : nat) (s : list nat * list nat * Z) : Prop := let '(a, e, _) := s in length a = n /\ length e = n.

(** Both functions, in terms of the matrix *)
Section Both.
  Context {F : Type} {O : SOps F} (M : srmat F).
  Hypothesis Hw : wf_pat M.
  Hypothesis He : wf_end M.
  Hypothesis Hd : wf_diag M.
  Hypothesis Hs : wf_sorted M.
  Lemma rows_of (low : bool) g1 g2 hi pb pd pe n1 n2 n3 :
    arr hi pb n1 = Some (browptr M) -> arr hi pd n2 = Some (diagind M) -> arr hi pe n3 = Some (browendptr M) ->
    exists a e z, length a = nbrows M /\ length e = nbrows M /\
      (if low then lower_rows (nbrows M) pb pd else upper_rows (nbrows M) pd pe) (Some (length hi, 0)) (Some (length hi + 1, 0))
         (hi ++ [Some (alloc g1 (nbrows M)); Some (alloc g2 (nbrows M))]) = Ok (hi ++ [Some a; Some e], z) /\
      is_triangle low M (SR a (bcolind M) (vals M) (diagind M) e (nbrows M) (Z.to_nat z) (nbstored M)).
  Proof.
    intros A1 A2 A3. destruct (C16_views F O M g1 g2 g1 g2 Hw He Hd Hs) as (L & U & EL & EU & HD & NL & NU & _).
    assert (lens (nbrows M) (alloc g1 (nbrows M), alloc g2 (nbrows M), 0%Z)) as L0 by (split; apply alloc_length).
    destruct low.
    - unfold getLowerTriangularView in EL. apply bind_Ok in EL as ([[a e] z] & E & EL). injection EL as <-.
      pose proof (lower_sim hi pb pd n1 n2 _ _ _ _ _ A1 A2 _ E) as S.
      assert (lens (nbrows M) (a, e, z)) as [La Le].
      { unfold for_ in E. revert E. apply for_n_keep; [|exact L0]. intros i [[p r] y] s1 [P1 P2] E.
        apply bind_Ok in E as (b & E1 & E). apply bind_Ok in E as (p' & E2 & E). apply bind_Ok in E as (d & E3 & E). apply bind_Ok in E as (r' & E4 & E).
        injection E as <-. apply set_inv' in E2 as [L2 ->], E4 as [L4 ->]. split; rewrite insert_length; assumption. }
      exists a, e, z. split; [exact La|]. split; [exact Le|]. split; [exact S|]. split; [reflexivity|]. split; [exact NL|].
      intros so bs I J Hbs HI. destruct (HD so bs I J Hbs HI) as [-> _]. destruct (Nat.leb_spec (J / bs) (I / bs)), (decide _); try lia; reflexivity.
    - unfold getUpperTriangularView in EU. apply bind_Ok in EU as ([[a e] z] & E & EU). injection EU as <-.
      pose proof (upper_sim hi pd pe n2 n3 _ _ _ _ _ A2 A3 _ E) as S.
      assert (lens (nbrows M) (a, e, z)) as [La Le].
      { unfold for_ in E. revert E. apply for_n_keep; [|exact L0]. intros i [[p r] y] s1 [P1 P2] E.
        apply bind_Ok in E as (b & E1 & E). apply bind_Ok in E as (p' & E2 & E). apply bind_Ok in E as (d & E3 & E). apply bind_Ok in E as (r' & E4 & E).
        injection E as <-. apply set_inv' in E2 as [L2 ->], E4 as [L4 ->]. split; rewrite insert_length; assumption. }
      exists a, e, z. split; [exact La|]. split; [exact Le|]. split; [exact S|]. split; [reflexivity|]. split; [exact NU|].
      intros so bs I J Hbs HI. destruct (HD so bs I J Hbs HI) as [_ ->]. destruct (Nat.leb_spec (I / bs) (J / bs)), (decide _); try lia; reflexivity.
  Qed.
End Both.

Lemma stor_parts {F} hi (hf : heap F) s M : stor_mat hi hf s = Some M ->
  arr hi (data (s_browptr s)) (len (s_browptr s)) = Some (browptr M) /\ arr hi (data (s_bcolind s)) (len (s_bcolind s)) = Some (bcolind M) /\
  arr hf (data (s_vals s)) (len (s_vals s)) = Some (vals M) /\ arr hi (data (s_diagind s)) (len (s_diagind s)) = Some (diagind M) /\
  arr hi (data (s_browendptr s)) (len (s_browendptr s)) = Some (browendptr M) /\ nbrows M = s_nbrows s /\ nnzb M = s_nnzb s /\ nbstored M = s_nbstored s.
Proof.
  unfold stor_mat. destruct (arr hi (data (s_browptr s)) _) eqn:E1; [|discriminate]. destruct (arr hi (data (s_bcolind s)) _) eqn:E2; [|discriminate].
  destruct (arr hf _ _) eqn:E3; [|discriminate]. destruct (arr hi (data (s_diagind s)) _) eqn:E4; [|discriminate].
  destruct (arr hi (data (s_browendptr s)) _) eqn:E5; [|discriminate]. simpl. intros E. injection E as <-. simpl. auto 10.
Qed.
Lemma stor_keeps {F} hi hi' (hf : heap F) s M : stor_mat hi hf s = Some M -> keeps hi hi' -> stor_mat hi' hf s = Some M.
Proof.
  intros E K. rewrite <- E. apply stor_parts in E as (A1 & A2 & A3 & A4 & A5 & _).
  assert (forall p n (l : list nat), arr hi p n = Some l -> arr hi' p n = arr hi p n) as X.
  { intros p n l H. apply arr_agree. intros b o ->. apply K. simpl in H. destruct (hi !! b) eqn:Eb; [|discriminate]. apply (lookup_lt_Some _ _ _ Eb). }
  unfold stor_mat. rewrite (X _ _ _ A1), (X _ _ _ A2), (X _ _ _ A4), (X _ _ _ A5). reflexivity.
Qed.
Lemma raw_keeps {F} bs hi hi' (hf : heap F) r M : raw_mat bs hi hf r = Some M -> keeps hi hi' -> raw_mat bs hi' hf r = Some M.
Proof.
  intros E K. rewrite <- E. apply raw_parts in E as (A1 & A2 & A3 & A4 & A5 & _).
  assert (forall p n (l : list nat), arr hi p n = Some l -> arr hi' p n = arr hi p n) as X.
  { intros p n l H. apply arr_agree. intros b o ->. apply K. simpl in H. destruct (hi !! b) eqn:Eb; [|discriminate]. apply (lookup_lt_Some _ _ _ Eb). }
  unfold raw_mat. rewrite (X _ _ _ A1), (X _ _ _ A2), (X _ _ _ A4), (X _ _ _ A5). reflexivity.
Qed.

(** The asserts of the debug build (210, 236, 238-244, 285, 309-314): for such a matrix with a row they hold, the last
    row ends with the diagonal entry, and the entries of the upper view are the diagonal one or right of it. *)
Theorem C89_asserts : forall (F : Type) (O : SOps F) g1 g2 (M U : srmat F),
  wf_pat M -> wf_end M -> wf_diag M -> wf_sorted M -> getUpperTriangularView g1 g2 M = Ok U ->
  (0 < nbrows M -> exists d, browendptr M !! (nbrows M - 1) = Some (d + 1) /\ diagind M !! (nbrows M - 1) = Some d /\
     browendptr U !! (nbrows M - 1) = Some (d + 1) /\ diagind U !! (nbrows M - 1) = Some d) /\
  forall i j, i < nbrows M -> j ∈ vrange U i -> i < bcolind U !!! j \/ diagind U !! i = Some j.
Proof.
  intros F O g1 g2 M U Hw He Hd Hs EU.
  unfold getUpperTriangularView in EU. apply bind_Ok in EU as ([[a e] z] & E & EU). injection EU as <-.
  assert (ok (Ok (a, e, z)) (fun '(p, r, _) => length p = nbrows M /\ length r = nbrows M /\
    forall i, i < nbrows M -> p !! i = Some (dg M i) /\ r !! i = Some (rp M (i + 1)))) as H.
  { rewrite <- E. apply ok_for_post with (I := fun k '(p, r, _) => length p = nbrows M /\ length r = nbrows M /\
      forall i, i < k -> p !! i = Some (dg M i) /\ r !! i = Some (rp M (i + 1))).
    - lia.
    - rewrite !alloc_length. split; [reflexivity|]. split; [reflexivity|]. intros; lia.
    - intros k [[p r] y] Hk (L1 & L2 & H1). rewrite (proj2 (get_Some _ _ _) (wf_diagind M k Hd ltac:(lia))). cbn [bind]. rewrite set_Ok by lia. cbn [bind].
      rewrite (proj2 (get_Some _ _ _) (proj2 He k ltac:(lia))). cbn [bind]. rewrite set_Ok by lia. cbn [bind ok]. rewrite !insert_length. split; [exact L1|]. split; [exact L2|].
      intros i Hi. destruct (decide (k = i)) as [->|Hne]; [rewrite !list_lookup_insert by lia; auto|]. rewrite !list_lookup_insert_ne by exact Hne. apply H1. lia.
    - intros [[p r] y] H. exact H. }
  cbn [ok] in H. destruct H as (L1 & L2 & H). pose proof Hd as [Hdl Hd']. split.
  - intros Hn. assert (nbrows M - 1 < nbrows M) as Hi by lia. destruct (Hd' _ Hi) as [D1 D2]. exists (dg M (nbrows M - 1)).
    assert (rp M (nbrows M - 1 + 1) = dg M (nbrows M - 1) + 1) as Hr.
    { destruct (decide (dg M (nbrows M - 1) + 1 < rp M (nbrows M - 1 + 1))) as [Hlt|]; [exfalso|lia].
      assert (inrow M (nbrows M - 1) (dg M (nbrows M - 1) + 1)) as Hj by (split; [exact Hi|lia]).
      pose proof (proj1 (after_diag M _ _ Hs Hd Hj) ltac:(lia)). pose proof (wf_col M Hw (dg M (nbrows M - 1) + 1)). unfold nnz in *. replace (nbrows M - 1 + 1) with (nbrows M) in * by lia. lia. }
    cbn [browendptr diagind]. rewrite (proj2 (H _ Hi)), (proj2 He _ Hi), Hr, (wf_diagind M _ Hd Hi). auto.
  - intros i j Hi Hj. unfold vrange in Hj. cbn [browptr browendptr] in Hj. rewrite !list_lookup_total_alt, (proj1 (H _ Hi)), (proj2 (H _ Hi)) in Hj. cbn in Hj.
    apply elem_of_range in Hj. cbn [bcolind diagind]. rewrite (wf_diagind M _ Hd Hi). destruct (Hd' _ Hi) as [D1 D2].
    destruct (decide (dg M i = j)) as [->|Hn]; [auto|left]. apply (after_diag M i j Hs Hd); [split; [exact Hi|lia]|lia].
Qed.

(** ** Of a storage *)
Definition storTri {F} (low elided nrvo : bool) g1 g2 (hi : heap nat) (hf : heap F) s :=
  if low then storLower elided nrvo g1 g2 hi hf s else storUpper elided nrvo g1 g2 hi hf s.
Definition tri_of (hi : heap nat) (s : stor) (n nnz : nat) : stor :=
  Stor (View (Some (length hi, 0)) n true) (view_wrap (data (s_bcolind s)) (len (s_bcolind s))) (view_wrap (data (s_vals s)) (len (s_vals s)))
    (view_wrap (data (s_diagind s)) (len (s_diagind s))) (View (Some (length hi + 1, 0)) n true) n nnz (s_nbstored s).
Lemma storTri_is {F} {O : SOps F} low elided nrvo g1 g2 (hi : heap nat) (hf : heap F) s M :
  stor_mat hi hf s = Some M -> wf_pat M -> wf_end M -> wf_diag M -> wf_sorted M ->
  exists a e z, length a = nbrows M /\ length e = nbrows M /\
    storTri low elided nrvo g1 g2 hi hf s = Ok (tri_of hi s (nbrows M) (Z.to_nat z), hi ++ [Some a; Some e], hf) /\
    is_triangle low M (SR a (bcolind M) (vals M) (diagind M) e (nbrows M) (Z.to_nat z) (nbstored M)).
Proof.
  intros HM Hw He Hd Hs. pose proof (stor_parts _ _ _ _ HM) as (A1 & A2 & A3 & A4 & A5 & N1 & N2 & N3).
  destruct (rows_of M Hw He Hd Hs low g1 g2 hi _ _ _ _ _ _ A1 A4 A5) as (a & e & z & La & Le & E & T).
  exists a, e, z. split; [exact La|]. split; [exact Le|]. split; [|exact T].
  unfold storTri. destruct low.
  - unfold storLower. cbn [view_alloc halloc data len]. rewrite new_blocks, app_length. cbn [length]. rewrite <- N1, E. cbn [bind].
    destruct elided, nrvo; reflexivity.
  - unfold storUpper. cbn [view_alloc halloc data len]. rewrite new_blocks, app_length. cbn [length]. rewrite <- N1, E. cbn [bind].
    destruct elided, nrvo; reflexivity.
Qed.
(** The triangular view of a storage: it stands for the triangle; the heaps keep all they had, the storage still stands
    for its matrix; and destroying the view frees exactly what making it allocated. *)
Theorem C89_storage : forall (F : Type) (O : SOps F) low elided nrvo g1 g2 (hi : heap nat) (hf : heap F) s M,
  stor_mat hi hf s = Some M -> wf_pat M -> wf_end M -> wf_diag M -> wf_sorted M ->
  exists t hi' T, storTri low elided nrvo g1 g2 hi hf s = Ok (t, hi', hf) /\
    stor_mat hi' hf t = Some T /\ is_triangle low M T /\
    keeps hi hi' /\ stor_mat hi' hf s = Some M /\
    exists hi'', stor_destroy hi' hf t = Ok (hi'', hf) /\ only hi hi'' /\ stor_mat hi'' hf s = Some M.
Proof.
  intros F O low elided nrvo g1 g2 hi hf s M HM Hw He Hd Hs. pose proof (stor_parts _ _ _ _ HM) as (A1 & A2 & A3 & A4 & A5 & N1 & N2 & N3).
  destruct (storTri_is low elided nrvo g1 g2 hi hf s M HM Hw He Hd Hs) as (a & e & z & La & Le & Ht & T).
  exists (tri_of hi s (nbrows M) (Z.to_nat z)), (hi ++ [Some a; Some e]), (SR a (bcolind M) (vals M) (diagind M) e (nbrows M) (Z.to_nat z) (nbstored M)).
  split; [exact Ht|]. split; [|split; [exact T|split; [apply keeps_app|split; [apply (stor_keeps hi); [exact HM|apply keeps_app]|]]]].
  { unfold stor_mat, tri_of. cbn [s_browptr s_bcolind s_vals s_diagind s_browendptr s_nbrows s_nnzb s_nbstored data len view_wrap].
    rewrite (arr_new0 hi a e _ La), (arr_new1 hi a e _ Le), (arr_app _ _ _ _ _ A2), (arr_app _ _ _ _ _ A4), A3, N3. reflexivity. }
  exists (<[length hi := None]> (<[length hi + 1 := None]> (hi ++ [Some a; Some e]))). split.
  { unfold stor_destroy, tri_of, view_destroy. cbn [s_browptr s_bcolind s_vals s_diagind s_browendptr owner data view_wrap hfree].
    rewrite lookup_app_r, Nat.add_comm, Nat.add_sub by lia. cbn [lookup list_lookup Nat.eqb bind].
    rewrite list_lookup_insert_ne by lia. rewrite (list_lookup_middle hi [Some e] (Some a) (length hi) eq_refl). cbn [Nat.eqb bind]. rewrite Nat.add_comm. reflexivity. }
  split; [apply freed|]. apply (stor_keeps hi); [exact HM|apply (proj1 (proj2 (freed hi a e)))].
Qed.

(** ** Freeing *)
Lemma hfree_frame {T} (h h' : heap T) p : hfree h p = Ok h' ->
  length h' = length h /\ (forall c, (forall o, p <> Some (c, o)) -> h' !! c = h !! c) /\ (forall c, h !! c = Some None -> h' !! c = Some None) /\
  (forall c o, p = Some (c, o) -> h' !! c = Some None).
Proof.
  unfold hfree. destruct p as [[b o]|].
  - destruct (h !! b) as [[l|]|] eqn:Eb; try discriminate. destruct (o =? 0); [|discriminate]. intros E. injection E as <-.
    pose proof (lookup_lt_Some _ _ _ Eb) as Hl. split; [apply insert_length|]. split; [|split].
    + intros c Hc. apply list_lookup_insert_ne. intros ->. apply (Hc o). reflexivity.
    + intros c Hc. destruct (decide (b = c)) as [->|Hn]; [apply list_lookup_insert, Hl|rewrite list_lookup_insert_ne by exact Hn; exact Hc].
    + intros c o' E. injection E as <- <-. apply list_lookup_insert, Hl.
  - intros E. injection E as <-. split; [reflexivity|]. split; [auto|]. split; [auto|]. intros c o E. discriminate.
Qed.
Lemma view_frame {T} (h h' : heap T) v : view_destroy h v = Ok h' ->
  length h' = length h /\ (forall c, (forall o, data v <> Some (c, o)) -> h' !! c = h !! c) /\ (forall c, h !! c = Some None -> h' !! c = Some None) /\
  (forall c o, owner v = true -> data v = Some (c, o) -> h' !! c = Some None).
Proof.
  unfold view_destroy. destruct (owner v).
  - intros E. apply hfree_frame in E as (H1 & H2 & H3 & H4). split; [exact H1|]. split; [exact H2|]. split; [exact H3|]. intros c o _. apply H4.
  - intros E. injection E as <-. split; [reflexivity|]. split; [auto|]. split; [auto|]. intros c o E. discriminate.
Qed.
Lemma dead_arr {T} (h : heap T) b o n : h !! b = Some None -> arr h (Some (b, o)) n = None.
Proof. intros H. unfold arr. rewrite H. reflexivity. Qed.
Lemma arr_old {T} (h : heap T) b o n l : arr h (Some (b, o)) n = Some l -> b < length h.
Proof. simpl. destruct (h !! b) eqn:Eb; [|discriminate]. intros _. apply (lookup_lt_Some _ _ _ Eb). Qed.

(** The view does not outlive the matrix: once the storage, which owned its columns, has been destroyed, the
    view stands for nothing. Destroying the view is still defined and frees what making it allocated. *)
Theorem C89_dangles : forall (F : Type) (O : SOps F) low elided nrvo g1 g2 (hi : heap nat) (hf : heap F) s M t hi' h2 hf2,
  stor_mat hi hf s = Some M -> wf_pat M -> wf_end M -> wf_diag M -> wf_sorted M ->
  storTri low elided nrvo g1 g2 hi hf s = Ok (t, hi', hf) ->
  stor_destroy hi' hf s = Ok (h2, hf2) -> owner (s_bcolind s) = true -> data (s_bcolind s) <> None ->
  stor_mat h2 hf2 t = None /\
  exists h3, stor_destroy h2 hf2 t = Ok (h3, hf2) /\ forall b, live h3 b <-> live h2 b /\ b < length hi.
Proof.
  intros F O low elided nrvo g1 g2 hi hf s M t hi' h2 hf2 HM Hw He Hd Hs Et Es Ho Hb.
  pose proof (stor_parts _ _ _ _ HM) as (A1 & A2 & A3 & A4 & A5 & N1 & N2 & N3).
  destruct (storTri_is low elided nrvo g1 g2 hi hf s M HM Hw He Hd Hs) as (a & e & z & La & Le & Ht & _). rewrite Ht in Et. injection Et as <- <-.
  unfold stor_destroy in Es.
  apply bind_Ok in Es as (h4 & E4 & Es). apply bind_Ok in Es as (h5 & E5 & Es). apply bind_Ok in Es as (h6 & E6 & Es).
  apply bind_Ok in Es as (h7 & E7 & Es). apply bind_Ok in Es as (h8 & E8 & Es). injection Es as -> ->.
  apply view_frame in E4 as (L4 & K4 & D4 & _), E5 as (L5 & K5 & D5 & _), E7 as (L7 & K7 & D7 & X7), E8 as (L8 & K8 & D8 & _).
  destruct (data (s_bcolind s)) as [[c o]|] eqn:Ec; [|congruence].
  assert (h2 !! c = Some None) as Dc by (apply D8, (X7 c o Ho eq_refl)).
  split.
  { unfold stor_mat, tri_of. cbn [s_browptr s_bcolind s_vals s_diagind s_browendptr data len view_wrap]. rewrite Ec, (dead_arr _ _ _ _ Dc).
    destruct (arr h2 (Some (length hi, 0)) _); reflexivity. }
  assert (forall p n (l : list nat) k o', arr hi p n = Some l -> p <> Some (length hi + k, o')) as Hold.
  { intros p n l k o' Hp ->. apply arr_old in Hp. lia. }
  assert (forall k, h2 !! (length hi + k) = (hi ++ [Some a; Some e]) !! (length hi + k)) as Hnew.
  { intros k. rewrite K8, K7, K5, K4; [reflexivity|..]; intros o'; eapply Hold; eassumption. }
  assert (length h2 = length hi + 2) as L2 by (rewrite L8, L7, L5, L4, app_length; reflexivity).
  exists (<[length hi := None]> (<[length hi + 1 := None]> h2)). split.
  - unfold stor_destroy, tri_of, view_destroy. cbn [s_browptr s_bcolind s_vals s_diagind s_browendptr owner data view_wrap hfree].
    rewrite Hnew, lookup_app_r, Nat.add_comm, Nat.add_sub by lia. cbn [lookup list_lookup Nat.eqb bind].
    rewrite list_lookup_insert_ne by lia. pose proof (Hnew 0) as H0. rewrite Nat.add_0_r in H0. rewrite H0, (list_lookup_middle hi [Some e] (Some a) (length hi) eq_refl).
    cbn [Nat.eqb bind]. rewrite Nat.add_comm. reflexivity.
  - intros b. unfold live. destruct (decide (b = length hi)) as [->|].
    { rewrite list_lookup_insert by (rewrite insert_length; lia). split; [intros [l E]; discriminate|lia]. }
    rewrite list_lookup_insert_ne by lia. destruct (decide (b = length hi + 1)) as [->|].
    { rewrite list_lookup_insert by lia. split; [intros [l E]; discriminate|lia]. }
    rewrite list_lookup_insert_ne by lia. split; [|tauto]. intros [l E]. split; [eauto|]. apply lookup_lt_Some in E. lia.
Qed.

(** ** Of a raw matrix *)
Definition rawTri (low : bool) g1 g2 (hi : heap nat) r := if low then rawLower g1 g2 hi r else rawUpper g1 g2 hi r.
Definition raw_tri_of (hi : heap nat) (r : raw) (n nnz : nat) : raw :=
  Raw (Some (length hi, 0)) (r_bcolind r) (r_vals r) (r_diagind r) (Some (length hi + 1, 0)) n nnz (r_nbstored r).
Lemma rawTri_is {F} {O : SOps F} low bs g1 g2 (hi : heap nat) (hf : heap F) r M :
  raw_mat bs hi hf r = Some M -> wf_pat M -> wf_end M -> wf_diag M -> wf_sorted M ->
  exists a e z, length a = nbrows M /\ length e = nbrows M /\
    rawTri low g1 g2 hi r = Ok (raw_tri_of hi r (nbrows M) (Z.to_nat z), hi ++ [Some a; Some e]) /\
    is_triangle low M (SR a (bcolind M) (vals M) (diagind M) e (nbrows M) (Z.to_nat z) (nbstored M)).
Proof.
  intros HM Hw He Hd Hs. destruct (raw_parts _ _ _ _ _ HM) as (A1 & A2 & A3 & A4 & A5 & N1 & N2 & N3).
  destruct (rows_of M Hw He Hd Hs low g1 g2 hi _ _ _ _ _ _ A1 A4 A5) as (a & e & z & La & Le & E & T).
  exists a, e, z. split; [exact La|]. split; [exact Le|]. split; [|exact T].
  unfold rawTri. destruct low.
  - unfold rawLower. cbn [halloc]. rewrite new_blocks, app_length. cbn [length]. rewrite <- N1, E. reflexivity.
  - unfold rawUpper. cbn [halloc]. rewrite new_blocks, app_length. cbn [length]. rewrite <- N1, E. reflexivity.
Qed.
(** The same for raw matrices, with the function meant for destroying their views. *)
Theorem C89_raw : forall (F : Type) (O : SOps F) low bs g1 g2 (hi : heap nat) (hf : heap F) r M,
  raw_mat bs hi hf r = Some M -> wf_pat M -> wf_end M -> wf_diag M -> wf_sorted M ->
  exists t hi' T, rawTri low g1 g2 hi r = Ok (t, hi') /\
    raw_view bs hi' hf t = Some T /\ is_triangle low M T /\
    keeps hi hi' /\ raw_mat bs hi' hf r = Some M /\
    exists hi'', destroyRawTri hi' t = Ok hi'' /\ only hi hi'' /\ raw_mat bs hi'' hf r = Some M.
Proof.
  intros F O low bs g1 g2 hi hf r M HM Hw He Hd Hs. destruct (raw_parts _ _ _ _ _ HM) as (A1 & A2 & A3 & A4 & A5 & N1 & N2 & N3).
  destruct (rawTri_is low bs g1 g2 hi hf r M HM Hw He Hd Hs) as (a & e & z & La & Le & Ht & T).
  exists (raw_tri_of hi r (nbrows M) (Z.to_nat z)), (hi ++ [Some a; Some e]), (SR a (bcolind M) (vals M) (diagind M) e (nbrows M) (Z.to_nat z) (nbstored M)).
  split; [exact Ht|]. split; [|split; [exact T|split; [apply keeps_app|split; [apply (raw_keeps bs hi); [exact HM|apply keeps_app]|]]]].
  { unfold raw_view, raw_tri_of. cbn [r_browptr r_bcolind r_vals r_diagind r_browendptr r_nbrows r_nnzb r_nbstored].
    rewrite (arr_new0 hi a e _ La), (arr_new1 hi a e _ Le), (arr_app _ _ _ _ _ A2), A3, N1, (arr_app _ _ _ _ _ A4), N3. reflexivity. }
  exists (<[length hi + 1 := None]> (<[length hi := None]> (hi ++ [Some a; Some e]))). split.
  { unfold destroyRawTri, raw_tri_of. cbn [r_browptr r_browendptr hfree].
    rewrite (list_lookup_middle hi [Some e] (Some a) (length hi) eq_refl). cbn [Nat.eqb bind].
    rewrite list_lookup_insert_ne by lia. rewrite lookup_app_r, Nat.add_comm, Nat.add_sub by lia. reflexivity. }
  split; [apply freed|]. apply (raw_keeps bs hi); [exact HM|apply (proj1 (proj1 (freed hi a e)))].
Qed.
(** Destroying a view with the function for whole matrices instead is undefined or takes the columns of the matrix away. *)
Theorem C89_whole_destroy_refuted : forall (F : Type) (O : SOps F) low bs g1 g2 (hi : heap nat) (hf : heap F) r M t hi',
  raw_mat bs hi hf r = Some M -> wf_pat M -> wf_end M -> wf_diag M -> wf_sorted M -> rawTri low g1 g2 hi r = Ok (t, hi') ->
  r_bcolind r <> None -> forall h2 hf2, destroyRaw hi' hf t = Ok (h2, hf2) -> raw_mat bs h2 hf2 r = None.
Proof.
  intros F O low bs g1 g2 hi hf r M t hi' HM Hw He Hd Hs Et Hb h2 hf2 E.
  destruct (rawTri_is low bs g1 g2 hi hf r M HM Hw He Hd Hs) as (a & e & z & La & Le & Ht & _). rewrite Ht in Et. injection Et as <- <-.
  unfold destroyRaw, raw_tri_of in E. cbn [r_browptr r_bcolind r_vals r_diagind r_browendptr r_nbrows r_nnzb r_nbstored] in E.
  apply bind_Ok in E as (h3 & E3 & E). apply bind_Ok in E as (h4 & E4 & E). apply bind_Ok in E as (h5 & E5 & E). apply bind_Ok in E as (h6 & E6 & E). apply bind_Ok in E as (h7 & E7 & E).
  injection E as -> ->. destruct (r_bcolind r) as [[c o]|] eqn:Ec; [|congruence].
  apply hfree_frame in E4 as (_ & _ & _ & X4), E5 as (_ & _ & D5 & _).
  assert (h2 !! c = Some None) as Dc.
  { assert (h5 !! c = Some None) as D by (apply D5, (X4 c o eq_refl)). destruct (negb _); [|injection E7 as <-; exact D].
    apply hfree_frame in E7 as (_ & _ & D7 & _). apply D7, D. }
  unfold raw_mat. rewrite Ec, (dead_arr _ _ _ _ Dc). destruct (arr h2 (r_browptr r) _); reflexivity.
Qed.
(** And a view cannot be copied as a whole matrix: its row starts end with the last row. *)
Theorem C89_copy_undefined : forall (F : Type) (O : SOps F) low bs g1 g2 (hi : heap nat) (hf : heap F) r M t hi',
  raw_mat bs hi hf r = Some M -> wf_pat M -> wf_end M -> wf_diag M -> wf_sorted M -> rawTri low g1 g2 hi r = Ok (t, hi') ->
  forall c1 c2 c4 (c3 : nat -> F) o, copyRaw bs c1 c2 c4 c3 hi' hf t o <-> o = UB.
Proof.
  intros F O low bs g1 g2 hi hf r M t hi' HM Hw He Hd Hs Et c1 c2 c4 c3 o.
  destruct (rawTri_is low bs g1 g2 hi hf r M HM Hw He Hd Hs) as (a & e & z & La & Le & Ht & _). rewrite Ht in Et. injection Et as <- <-.
  assert (forall x, copyRaw_arrays bs c1 c2 c4 c3 (hi ++ [Some a; Some e]) hf (raw_tri_of hi r (nbrows M) (Z.to_nat z)) x <-> x = UB) as X.
  { intros x. unfold copyRaw_arrays, raw_tri_of. cbn [r_browptr r_nbrows halloc].
    assert (hread ((hi ++ [Some a; Some e]) ++ [Some (c1 <$> seq 0 (nbrows M + 1))]) (Some (length hi, 0)) (nbrows M) = UB) as U.
    { unfold hread. rewrite <- app_assoc. cbn [app]. rewrite (list_lookup_middle hi _ (Some a) (length hi) eq_refl). unfold get. rewrite lookup_ge_None_2 by lia. reflexivity. }
    rewrite U. split.
    - intros (y & Hy & H). hnf in Hy. subst y. exact H.
    - intros ->. exists UB. split; reflexivity. }
  unfold copyRaw. split.
  - intros (y & Hy & H). apply X in Hy. subst y. exact H.
  - intros ->. exists UB. split; [apply X; reflexivity|reflexivity].
Qed.
(** A raw view of a storage stands for the same matrix. *)
Theorem C89_raw_of_storage : forall (F : Type) (hi : heap nat) (hf : heap F) bs s, sized bs s ->
  raw_mat bs hi hf (createRawView s) = stor_mat hi hf s.
Proof.
  intros F hi hf bs s (H1 & H2 & H3 & H4 & H5). unfold raw_mat, stor_mat, createRawView. cbn [r_browptr r_bcolind r_vals r_diagind r_browendptr r_nbrows r_nnzb r_nbstored].
  rewrite H1, H2, H3, H4, H5, Nat.mul_assoc. reflexivity.
Qed.

(** the tridiagonal example: [hi0] has its row starts, columns and diagonal positions, the storage owns everything but the row ends *)
Definition hi0 : heap nat := [Some (browptr exM); Some (bcolind exM); Some (diagind exM)].
Definition st0 : stor := Stor (View (Some (0, 0)) 4 true) (View (Some (1, 0)) 7 true) (View (Some (0, 0)) 7 true) (View (Some (2, 0)) 3 true)
  (View (Some (0, 1)) 3 false) 3 7 7.
Example C89_case : exists M, stor_mat hi0 [Some (vals exM)] st0 = Some M /\ sized 1 st0 /\ raw_mat 1 hi0 [Some (vals exM)] (createRawView st0) = Some M /\
  wf_pat M /\ wf_end M /\ wf_diag M /\ wf_sorted M /\ owner (s_bcolind st0) = true /\ data (s_bcolind st0) <> None /\
  (exists t, storUpper false false (fun _ => 9) (fun _ => 9) hi0 [Some (vals exM)] st0
     = Ok (t, hi0 ++ [Some (diagind exM); Some (browendptr exM)], [Some (vals exM)]) /\
     stor_destroy (hi0 ++ [Some (diagind exM); Some (browendptr exM)]) [Some (vals exM)] t = Ok (hi0 ++ [None; None], [Some (vals exM)]) /\
     stor_destroy (hi0 ++ [Some (diagind exM); Some (browendptr exM)]) [Some (vals exM)] st0 = Ok ([None; None; None; Some (diagind exM); Some (browendptr exM)], [None])).
Proof.
  assert (wf_end exM) as He by (split; [reflexivity|]; intros i Hi; simpl in Hi; do 3 (destruct i as [|i]; [reflexivity|]); lia).
  exists exM. split; [reflexivity|]. split; [repeat split|]. split; [reflexivity|]. split; [exact exM_pat|]. split; [exact He|]. split; [exact exM_diag|]. split; [exact exM_sorted|].
  split; [reflexivity|]. split; [discriminate|]. eexists. split; [reflexivity|]. split; reflexivity.
Qed.

Print Assumptions C89_asserts.
Print Assumptions C89_storage.
Print Assumptions C89_dangles.
Print Assumptions C89_raw.
Print Assumptions C89_whole_destroy_refuted.
Print Assumptions C89_copy_undefined.
Print Assumptions C89_raw_of_storage.
