(** * PropPetscVec: properties C66 (reading dense files) and C67 (single options) *)
From Coq Require Import ZArith QArith.Qcanon.
From Verif Require Import Base Alg SRMatrix Nd Coo PetscIo Inst.
Open Scope nat_scope.

(** ** C66 *)
(** a file of an [a] by [b] dense general matrix *)
Definition dense_file {F} (a b : nat) (body : list (option F)) (file : densefile F) : Prop :=
  (exists d, getMMDescription (df_header file) = Ok d /\ storagetype d = ARRAY /\ matrixtype d = GENERAL) /\
  (exists extra, df_sizes file = a :: b :: extra) /\ df_body file = body.

Section Dense.
  Context {F : Type} {O : SOps F}.
  (** the numbers [xs] are followed by the end of the file or by something that is not a number *)
  Definition stops (rest : list (option F)) : Prop := rest = [] \/ exists r, rest = None :: r.
  Lemma read_values n (xs : list F) rest : n <= length xs \/ stops rest ->
    exists st, for_ 0 n (fun i '(vals, st) =>
          let! old := get vals i in
          let '(x, st) := extract st old in
          let! vals := set vals i x in
          Ok (vals, st)) (replicate n s0, (true, (Some <$> xs) ++ rest)) = Ok (take n xs ++ replicate (n - length xs) s0, st).
  Proof.
    intros Hst.
    assert (ok (for_ 0 n (fun i '(vals, st) =>
          let! old := get vals i in
          let '(x, st) := extract st old in
          let! vals := set vals i x in
          Ok (vals, st)) (replicate n s0, (true, (Some <$> xs) ++ rest)))
      (fun '(vals, _) => vals = take n xs ++ replicate (n - length xs) s0)) as H.
    2:{ apply ok_inv in H as ([vals st] & -> & ->). eauto. }
    eapply ok_for_post with (I := fun k '(vals, st) => vals = take k xs ++ replicate (n - Nat.min k (length xs)) s0 /\
      (if decide (k <= length xs) then st = (true, (Some <$> drop k xs) ++ rest) else st.1 = false)); [lia| | |].
    - split; [rewrite Nat.min_0_l, Nat.sub_0_r; reflexivity|]. rewrite decide_True by lia. rewrite drop_0. reflexivity.
    - intros k [vals st] Hk [-> Hs].
      assert (length (take k xs ++ replicate (n - Nat.min k (length xs)) s0) = n) as L by (rewrite app_length, take_length, replicate_length; lia).
      assert (exists old, (take k xs ++ replicate (n - Nat.min k (length xs)) s0) !! k = Some old /\ (length xs <= k -> old = s0) /\
        (k < length xs -> take k xs ++ replicate (n - Nat.min k (length xs)) s0 = take k xs ++ s0 :: replicate (n - (k + 1)) s0)) as (old & Ho & Hz & Hsplit).
      { destruct (decide (k < length xs)).
        - exists s0. rewrite lookup_app_r by (rewrite take_length; lia). rewrite take_length. replace (k - Nat.min k (length xs)) with 0 by lia.
          replace (n - Nat.min k (length xs)) with (S (n - (k + 1))) by lia. split; [reflexivity|]. split; [reflexivity|]. reflexivity.
        - exists s0. rewrite lookup_app_r by (rewrite take_length; lia). rewrite lookup_replicate, take_length. split; [split; [reflexivity|lia]|]. split; [reflexivity|lia]. }
      rewrite (proj2 (get_Some _ _ _) Ho). cbn [bind].
      destruct (decide (k <= length xs)).
      + subst st. destruct (decide (k < length xs)) as [Hlt|].
        * destruct (lookup_lt_is_Some_2 xs k Hlt) as [x Hx]. rewrite (drop_S xs x k Hx). cbn [fmap list_fmap app extract].
          rewrite set_Ok by lia. cbn [bind]. apply ok_ret. rewrite decide_True by lia. split; [|f_equal; f_equal; f_equal; f_equal; lia].
          rewrite Hsplit by exact Hlt. replace k with (length (take k xs) + 0) at 1 by (rewrite take_length; lia).
          rewrite insert_app_r. cbn [insert list_insert]. replace (k + 1) with (S k) at 2 by lia. rewrite (take_S_r xs k x Hx), <- app_assoc. f_equal. cbn [app]. f_equal. f_equal. lia.
        * assert (k = length xs) as -> by lia. rewrite drop_all. cbn [fmap list_fmap app]. destruct Hst as [Hst|Hst]; [lia|].
          assert (extract (true, rest) old = (s0, (false, rest))) as ->.
          { destruct Hst as [-> | [r ->]]; simpl; [rewrite Hz by lia|]; reflexivity. }
          rewrite set_Ok by lia. cbn [bind]. apply ok_ret. rewrite decide_False by lia. split; [|reflexivity].
          rewrite list_insert_id by (rewrite Ho, Hz by lia; reflexivity). rewrite !take_ge by lia. f_equal. f_equal. lia.
      + destruct st as [b ws]. cbn [fst] in Hs. subst b. cbn [extract]. rewrite set_Ok by lia. cbn [bind]. apply ok_ret.
        rewrite list_insert_id by exact Ho. rewrite decide_False by lia. split; [|reflexivity]. rewrite !take_ge by lia. f_equal. f_equal. lia.
    - intros [vals st] [-> _]. f_equal. f_equal. lia.
  Qed.
  Lemma read_dense a b (file : densefile F) xs rest : dense_file a b ((Some <$> xs) ++ rest) file -> a * b <= length xs \/ stops rest ->
    readDenseMatrixMarket file = Ok (take (a * b) xs ++ replicate (a * b - length xs) s0).
  Proof.
    intros ((d & Hd & H1 & H2) & (extra & Hs) & Hb) Hst. unfold readDenseMatrixMarket. rewrite Hd. cbn [bind]. rewrite H2, H1, Hs.
    unfold getSizeFromMatrixMarket. rewrite H1. cbn [length Nat.ltb Nat.leb bind get lookup list_lookup]. rewrite Hb.
    destruct (read_values (a * b) xs rest Hst) as (st & E). rewrite E. reflexivity.
  Qed.
End Dense.

(** C66. A dense file with at least as many numbers as its size line announces: those numbers, in the order of the file. *)
Theorem C66_dense : forall (F : Type) (O : SOps F) a b xs more (file : densefile F),
  dense_file a b ((Some <$> xs) ++ more) file -> length xs = a * b -> readDenseMatrixMarket file = Ok xs.
Proof.
  intros F O a b xs more file Hf L. rewrite (read_dense a b file xs more Hf) by (left; lia). rewrite L, Nat.sub_diag, app_nil_r. rewrite take_ge by lia. reflexivity.
Qed.
(** A PETSc vector made without a matrix, or with a matrix of as many rows, has exactly those entries. *)
Theorem C66_vec : forall (F : Type) (O : SOps F) dbg a b xs more (file : densefile F) m,
  dense_file a b ((Some <$> xs) ++ more) file -> length xs = a * b -> m = None \/ m = Some (a * b) -> readVecFromFile dbg m file = Ok xs.
Proof.
  intros F O dbg a b xs more file m Hf L Hm. unfold readVecFromFile. rewrite (C66_dense F O a b xs more file Hf L). cbn [bind].
  assert (match m with Some m => m | None => length xs end = length xs) as -> by (destruct Hm as [-> | ->]; congruence).
  set (n := length xs).
  match goal with |- bind ?m _ = _ => assert (ok m (fun idx => length idx = n /\ forall i, i < n -> idx !! i = Some i)) as H1 end.
  { eapply ok_for_post with (I := fun k idx => length idx = n /\ forall i, i < k -> idx !! i = Some i); [lia| | |auto].
    - split; [apply replicate_length|]. intros; lia.
    - intros k idx Hk [Li Hi]. apply ok_set; [lia|]. rewrite insert_length. split; [exact Li|]. intros i Hik. destruct (decide (i = k)) as [->|].
      + apply list_lookup_insert. lia.
      + rewrite list_lookup_insert_ne by auto. apply Hi. lia. }
  apply ok_inv in H1 as (idx & -> & Li & Hi). cbn [bind].
  match goal with |- bind ?m _ = _ => assert (ok m (fun '(v, e) => e = false /\ v = xs)) as H2 end.
  { eapply ok_for_post with (I := fun k '(v, e) => e = false /\ length v = n /\ forall i, i < k -> v !! i = xs !! i); [lia| | |].
    - split; [reflexivity|]. split; [apply replicate_length|]. intros; lia.
    - intros k [v e] Hk (-> & Lv & Hv). rewrite (proj2 (get_Some _ _ _) (Hi k ltac:(lia))). cbn [bind].
      destruct (lookup_lt_is_Some_2 xs k) as [x Hx]; [fold n; lia|]. rewrite (proj2 (get_Some _ _ _) Hx). cbn [bind].
      rewrite (proj2 (Nat.ltb_lt k (length v))) by lia. rewrite set_Ok by lia. cbn [bind]. apply ok_ret.
      rewrite insert_length. split; [reflexivity|]. split; [exact Lv|]. intros i Hik. destruct (decide (i = k)) as [->|].
      + rewrite list_lookup_insert by lia. auto.
      + rewrite list_lookup_insert_ne by auto. apply Hv. lia.
    - intros [v e] (-> & Lv & Hv). split; [reflexivity|]. apply list_eq_lt; [exact Lv|]. intros i Hii. apply Hv. lia. }
  apply ok_inv in H2 as ([v e] & -> & -> & ->). reflexivity.
Qed.
(** A matrix with another number [m] of rows. With fewer numbers in the file than rows the remaining entries are zero; with more, a debugging build of PETSc returns
    an error code and another one does something undefined. *)
Theorem C66_vec_sizes : forall (F : Type) (O : SOps F) dbg a b xs more (file : densefile F) m,
  dense_file a b ((Some <$> xs) ++ more) file -> length xs = a * b ->
  (a * b <= m -> readVecFromFile dbg (Some m) file = Ok (xs ++ replicate (m - a * b) s0)) /\
  (m < a * b -> readVecFromFile dbg (Some m) file = if dbg then petsc_error else UB).
Proof.
  intros F O dbg a b xs more file m Hf L. unfold readVecFromFile. rewrite (C66_dense F O a b xs more file Hf L). cbn [bind]. rewrite <- L.
  set (n := length xs).
  match goal with |- context [bind ?m _] => assert (ok m (fun idx => length idx = n /\ forall i, i < n -> idx !! i = Some i)) as H1 end.
  { eapply ok_for_post with (I := fun k idx => length idx = n /\ forall i, i < k -> idx !! i = Some i); [lia| | |auto].
    - split; [apply replicate_length|]. intros; lia.
    - intros k idx Hk [Li Hi]. apply ok_set; [lia|]. rewrite insert_length. split; [exact Li|]. intros i Hik. destruct (decide (i = k)) as [->|].
      + apply list_lookup_insert. lia.
      + rewrite list_lookup_insert_ne by auto. apply Hi. lia. }
  apply ok_inv in H1 as (idx & -> & Li & Hi). cbn [bind].
  set (body := fun (k : nat) '((v, ierr) : list F * bool) => if ierr then Ok (v, ierr) else
      let! i := get idx k in let! x := get xs k in
      if i <? length v then let! v := set v i x in Ok (v, false) else if dbg then Ok (v, true) else UB).
  assert (forall hi, hi <= n -> hi <= m -> for_ 0 hi body (replicate m s0, false) = Ok (take hi xs ++ replicate (m - hi) s0, false)) as Hpre.
  { intros hi Hn Hm. assert (ok (for_ 0 hi body (replicate m s0, false)) (fun '(v, e) => e = false /\ v = take hi xs ++ replicate (m - hi) s0)) as H.
    2:{ apply ok_inv in H as ([v e] & -> & -> & ->). reflexivity. }
    eapply ok_for_post with (I := fun k '(v, e) => e = false /\ v = take k xs ++ replicate (m - k) s0); [lia| | |auto].
    - split; [reflexivity|]. rewrite Nat.sub_0_r. reflexivity.
    - intros k [v e] Hk (-> & Hv). unfold body. rewrite (proj2 (get_Some _ _ _) (Hi k ltac:(lia))). cbn [bind].
      destruct (lookup_lt_is_Some_2 xs k) as [x Hx]; [fold n; lia|]. rewrite (proj2 (get_Some _ _ _) Hx). cbn [bind].
      assert (length v = m) as Lv. { rewrite Hv, app_length, take_length, replicate_length. fold n. lia. }
      rewrite (proj2 (Nat.ltb_lt k (length v))) by lia. rewrite set_Ok by lia. cbn [bind]. apply ok_ret. split; [reflexivity|].
      rewrite Hv. replace (m - k) with (S (m - (k + 1))) by lia. cbn [replicate].
      replace k with (length (take k xs) + 0) at 1 by (rewrite take_length; fold n; lia).
      rewrite insert_app_r. cbn [insert list_insert]. replace (k + 1) with (S k) at 2 by lia. rewrite (take_S_r xs k x Hx), <- app_assoc. reflexivity. }
  split; intros Hm.
  - rewrite (Hpre n) by lia. cbn [bind CHKERRQ]. rewrite take_ge by (fold n; lia). reflexivity.
  - assert (for_ 0 n body (replicate m s0, false) = bind (for_ 0 m body (replicate m s0, false)) (fun s => for_ m n body s)) as ->.
    { unfold for_. replace (n - 0) with (m + (n - m)) by lia. rewrite for_n_app. replace (m - 0) with m by lia. reflexivity. }
    rewrite (Hpre m) by lia. cbn [bind].
    assert (for_ m n body (take m xs ++ replicate (m - m) s0, false) = if dbg then Ok (take m xs ++ replicate (m - m) s0, true) else UB) as ->.
    { unfold for_. replace (n - m) with (S (n - (m + 1))) by lia. cbn [for_n]. set (v := take m xs ++ replicate (m - m) s0).
      assert (length v = m) as Lv. { unfold v. rewrite app_length, take_length, replicate_length. fold n. lia. }
      assert (body m (v, false) = if dbg then Ok (v, true) else UB) as ->.
      { unfold body. rewrite (proj2 (get_Some _ _ _) (Hi m ltac:(lia))). cbn [bind].
        destruct (lookup_lt_is_Some_2 xs m) as [x Hx]; [fold n; lia|]. rewrite (proj2 (get_Some _ _ _) Hx). cbn [bind].
        rewrite (proj2 (Nat.ltb_ge m (length v))) by lia. reflexivity. }
      destruct dbg; [|reflexivity]. cbn [bind]. generalize (m + 1). intros i. generalize (n - i). clear. intros k. revert i.
      induction k as [|k IH]; intros i; [reflexivity|]. cbn [for_n body bind]. apply IH. }
    destruct dbg; reflexivity.
Qed.
(** Not detected: a file that ends too early, or has a word that is not a number: the values missing are zero, and no error is reported. *)
Theorem C66_short_refuted : forall (F : Type) (O : SOps F) a b xs rest (file : densefile F),
  dense_file a b ((Some <$> xs) ++ rest) file -> length xs < a * b -> rest = [] \/ (exists r, rest = None :: r) ->
  readDenseMatrixMarket file = Ok (xs ++ replicate (a * b - length xs) s0).
Proof. intros F O a b xs rest file Hf L Hr. rewrite (read_dense a b file xs rest Hf) by (right; exact Hr). rewrite take_ge by lia. reflexivity. Qed.
(** Not detected either: a file of complex numbers. The first half of the file is read as if it were real, real and imaginary parts in turn. *)
Theorem C66_complex_refuted : forall (F : Type) (O : SOps F) header object a b (zs : list (F * F)),
  words header = ["%%MatrixMarket"; object; "array"; "complex"; "general"]%string -> length zs = a * b ->
  readDenseMatrixMarket (DenseFile header [a; b] (Some <$> concat ((fun z => [z.1; z.2]) <$> zs))) = Ok (take (a * b) (concat ((fun z => [z.1; z.2]) <$> zs))).
Proof.
  intros F O header object a b zs Hw L. set (xs := concat ((fun z => [z.1; z.2]) <$> zs)).
  assert (length xs = 2 * length zs) as Lx. { unfold xs. clear. induction zs as [|z zs IH]; [reflexivity|]. cbn [fmap list_fmap concat app length] in *. lia. }
  rewrite (read_dense a b _ xs []); [|split; [|split]|left; lia].
  - replace (a * b - length xs) with 0 by lia. apply f_equal, app_nil_r.
  - eexists. split; [unfold getMMDescription; cbn [df_header]; rewrite Hw; reflexivity|]. split; reflexivity.
  - exists []. reflexivity.
  - cbn [df_body]. symmetry. apply app_nil_r.
Qed.
(** All other kinds of files are refused. *)
Theorem C66_refused : forall (F : Type) (O : SOps F) (file : densefile F) d, getMMDescription (df_header file) = Ok d ->
  storagetype d <> ARRAY \/ matrixtype d <> GENERAL \/ length (df_sizes file) < 2 -> exists msg, readDenseMatrixMarket file = Throw msg.
Proof.
  intros F O file d Hd H. unfold readDenseMatrixMarket. rewrite Hd. cbn [bind]. destruct (matrixtype d) eqn:E1; eauto. destruct (storagetype d) eqn:E2; eauto.
  unfold getSizeFromMatrixMarket. rewrite E2. destruct H as [H|[H|H]]; [congruence|congruence|]. rewrite (proj2 (Nat.ltb_lt _ 2) H). cbn [bind]. eauto.
Qed.
Example C66_case : dense_file 3 1 ((Some <$> [q 4; q 5; q 6]) ++ []) (DenseFile "%%MatrixMarket matrix array real general" [3; 1] [Some (q 4); Some (q 5); Some (q 6)]) /\
  dense_file 3 1 ((Some <$> [q 4]) ++ [None; Some (q 6)]) (DenseFile "%%MatrixMarket matrix array real general" [3; 1] [Some (q 4); None; Some (q 6)]) /\
  words "%%MatrixMarket matrix array complex general" = ["%%MatrixMarket"; "matrix"; "array"; "complex"; "general"]%string.
Proof. split; [|split; [|reflexivity]]; (split; [eexists; split; [reflexivity|split; reflexivity]|split; [exists []; reflexivity|reflexivity]]). Qed.

(** ** C67 *)
(** Required options: the value if there is one, an exception otherwise. *)
Theorem C67_required : forall name,
  (forall g, parsePetscCmd_int name g = match g with Value v => Ok v | Unset => InputNotGiven "Integer" name | Bad => PetscException end) /\
  (forall g, parsePetscCmd_bool name g = match g with Value v => Ok v | Unset => InputNotGiven "Boolean" name | Bad => PetscException end) /\
  (forall n g, 0 < n -> (parsePetscCmd_string name n g).1 = match g with Value v => Ok (substring 0 (n - 1) v) | Unset => InputNotGiven "String" name | Bad => PetscException end) /\
  (forall n g, parsePetscCmd_intArray name n g = match g with Value v => Ok (take n v) | Unset => InputNotGiven "Array" name | Bad => PetscException end).
Proof.
  intros name. split; [intros []; reflexivity|]. split; [intros []; reflexivity|]. split.
  - intros n g Hn. unfold parsePetscCmd_string. destruct g; try reflexivity. destruct (Nat.eqb_spec n 0); [lia|reflexivity].
  - intros n g. unfold parsePetscCmd_intArray, options_get_array. destruct g as [| |v]; try reflexivity. cbn [bind negb]. f_equal.
    rewrite !replicate_length, app_length, take_length, drop_length, replicate_length.
    replace (Nat.min (length v) n - _) with 0 by lia. rewrite app_nil_r, take_app_le by (rewrite take_length; lia). rewrite take_take.
    destruct (decide (n <= length v)); [f_equal; lia|]. rewrite !take_ge by lia. reflexivity.
Qed.
(** An option is reported as defined iff it was given, whether or not its value makes sense. *)
Theorem C67_defined : forall A (g : given A), parsePetscCmd_isDefined g = true <-> g <> Unset.
Proof. intros A []; simpl; split; congruence. Qed.
(** The optional real: the default if the option is absent; the exception is for unreadable values only. *)
Theorem C67_optional_real : forall (F : Type) (O : SOps F) defval (g : given F),
  parseOptionalPetscCmd_real g defval = match g with Value v => Ok v | Unset => Ok defval | Bad => PetscException end.
Proof. intros F O defval []; reflexivity. Qed.
(** The optional integer array is documented not to throw if the option is absent, but to return an empty vector. It throws, whatever the name and length. *)
Theorem C67_optional_array_refuted : forall name n, parseOptionalPetscCmd_intArray name n Unset = InputNotGiven "Array" name.
Proof. reflexivity. Qed.
(** The buffer of the string parser is freed iff a value is returned. *)
Theorem C67_string_leak_refuted : forall name n g, 0 < n -> (parsePetscCmd_string name n g).2 = true <-> exists s, (parsePetscCmd_string name n g).1 = Ok s.
Proof.
  intros name n g Hn. destruct g as [| |s]; simpl; [split; [discriminate|intros (s & E); discriminate]|split; [discriminate|intros (s & E); discriminate]|].
  destruct (Nat.eqb_spec n 0); [lia|]. simpl. split; eauto.
Qed.
Example C67_case : parsePetscCmd_intArray "-sweeps" 2 (Value [3; 1; 7]%Z) = Ok [3; 1]%Z /\ (parsePetscCmd_string "-type" 5 (Value "sapilu0"%string)).1 = Ok "sapi"%string.
Proof. split; reflexivity. Qed.

Print Assumptions C66_dense.
Print Assumptions C66_vec.
Print Assumptions C66_vec_sizes.
Print Assumptions C66_short_refuted.
Print Assumptions C66_complex_refuted.
Print Assumptions C66_refused.
Print Assumptions C67_required.
Print Assumptions C67_defined.
Print Assumptions C67_optional_real.
Print Assumptions C67_optional_array_refuted.
Print Assumptions C67_string_leak_refuted.
