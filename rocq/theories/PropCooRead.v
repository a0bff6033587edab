(** * PropCooRead: properties C06 (reading a coordinate file) and C07 (header line) *)
From Verif Require Import Base Alg SRMatrix Nd Coo CooSpec CooFacts CooRead PropCoo Inst.
From Coq Require Import ZArith QArith.Qcanon Ascii.
Open Scope nat_scope.

(** ** C07 *)
(** [splits s ws]: the blank-separated words of line [s] are [ws] *)
Definition blankfree (w : string) : Prop := forall c, In c (list_ascii_of_string w) -> is_space c = false.
Inductive splits : string -> list string -> Prop :=
| sp_end : splits "" []
| sp_blank c s ws : is_space c = true -> splits s ws -> splits (String c s) ws
| sp_word w s ws : w <> ""%string -> blankfree w -> (s = ""%string \/ exists c s', s = String c s' /\ is_space c = true) ->
    splits s ws -> splits (w ++ s) (w :: ws).
Lemma str_app_assoc (a b c : string) : ((a ++ b) ++ c = a ++ (b ++ c))%string.
Proof. induction a as [|x a IH]; [reflexivity|]. simpl. f_equal. exact IH. Qed.
Lemma str_app_nil (a : string) : (a ++ "" = a)%string.
Proof. induction a as [|x a IH]; [reflexivity|]. simpl. f_equal. exact IH. Qed.
Lemma words_from_app u : blankfree u -> forall w s, words_from w (u ++ s) = words_from (w ++ u) s.
Proof.
  induction u as [|c u IH]; intros Hu w s; [simpl; rewrite str_app_nil; reflexivity|].
  change (String c u ++ s)%string with (String c (u ++ s)). cbn [words_from].
  rewrite (Hu c) by (left; reflexivity). rewrite IH by (intros c' Hc'; apply Hu; right; exact Hc').
  rewrite str_app_assoc. reflexivity.
Qed.
Theorem C07_words : forall s ws, splits s ws <-> words s = ws.
Proof.
  intros s ws. split.
  - unfold words. induction 1 as [|c s ws Hc H IH|w s ws Hne Hw Hs H IH]; [reflexivity| |].
    + simpl. rewrite Hc. exact IH.
    + rewrite words_from_app by exact Hw. simpl append. assert (String.eqb w "" = false) as E by (apply String.eqb_neq, Hne).
      destruct Hs as [-> | (c & s' & -> & Hc)].
      * simpl. rewrite E. simpl in IH. congruence.
      * simpl. rewrite Hc, E. simpl in IH. rewrite Hc in IH. congruence.
  - intros <-. unfold words. assert (forall s w, blankfree w -> splits (w ++ s) (words_from w s)) as H.
    { clear s. induction s as [|c s IH]; intros w Hw; cbn [words_from].
      - destruct (String.eqb_spec w "") as [->|Hne]; [constructor|]. apply sp_word; auto. constructor.
      - assert (blankfree "") as H0 by (intros c' []). destruct (is_space c) eqn:Ec.
        + destruct (String.eqb_spec w "") as [->|Hne].
          * apply sp_blank; [exact Ec|]. apply (IH ""%string H0).
          * apply sp_word; auto; [right; eauto|]. apply sp_blank; [exact Ec|]. apply (IH ""%string H0).
        + assert (blankfree (w ++ String c "")) as Hw'.
          { clear -Hw Ec. induction w as [|d w IH]; intros x Hx; [destruct Hx as [<-|[]]; exact Ec|].
            simpl in Hx. destruct Hx as [<-|Hx]; [apply Hw; left; reflexivity|]. apply IH; [|exact Hx]. intros y Hy. apply Hw. right. exact Hy. }
          specialize (IH _ Hw'). rewrite str_app_assoc in IH. exact IH. }
    apply (H s ""%string). intros c [].
Qed.
(** the words accepted and what they mean *)
Definition storage_words : list (string * mm_storage) := [("coordinate", COORDINATE); ("array", ARRAY)]%string.
Definition scalar_words : list (string * mm_scalar) := [("real", REAL); ("complex", COMPLEX); ("integer", INTEGER); ("patter", PATTERN)]%string.
Definition matrix_words : list (string * mm_matrix) :=
  [("general", GENERAL); ("symmetric", SYMMETRIC); ("skewsymmetric", SKEWSYMMETRIC); ("hermitian", HERMITIAN)]%string.

(** A line is accepted iff it has five words, the first is the banner and the last three are
    known; the description is what they say; any other line makes the function end with an
    exception or abort (nothing undefined). *)
Theorem C07_header : forall line,
  (forall d, getMMDescription line = Ok d <->
    exists object w2 w3 w4, splits line ["%%MatrixMarket"%string; object; w2; w3; w4] /\
      (w2, storagetype d) ∈ storage_words /\ (w3, scalartype d) ∈ scalar_words /\ (w4, matrixtype d) ∈ matrix_words) /\
  ((exists d, getMMDescription line = Ok d) \/ exists msg, getMMDescription line = Throw msg).
Proof.
  intros line. unfold getMMDescription.
  assert (forall ws, splits line ws <-> words line = ws) as Hsp by (intros; apply C07_words). setoid_rewrite Hsp. clear Hsp.
  destruct (words line) as [|w0 [|w1 [|w2 [|w3 [|w4 [|w5 rest]]]]]]; simpl length; cbn [Nat.eqb negb];
    try (split; [intros d; split; [discriminate|intros (o & a & b & c & E & _); discriminate]|right; eauto]).
  cbn [get lookup list_lookup bind]. destruct (String.eqb_spec w0 "%%MatrixMarket") as [->|H0]; cbn [negb].
  2:{ split; [intros d; split; [discriminate|intros (o & a & b & c & E & _); congruence]|right; eauto]. }
  assert (forall a (s : mm_storage), (a, s) ∈ storage_words <-> (if String.eqb a "coordinate" then Ok COORDINATE else if String.eqb a "array" then Ok ARRAY else Throw "abort") = Ok s) as Hst.
  { intros a s. unfold storage_words. rewrite !elem_of_cons, elem_of_nil.
    destruct (String.eqb_spec a "coordinate") as [->|]; [|destruct (String.eqb_spec a "array") as [->|]]; split; intros H.
    all: try (injection H as <-; auto); try (destruct H as [H|[H|[]]]; congruence); discriminate. }
  assert (forall a (s : mm_scalar), (a, s) ∈ scalar_words <-> (if String.eqb a "real" then Ok REAL else if String.eqb a "complex" then Ok COMPLEX
      else if String.eqb a "integer" then Ok INTEGER else if String.eqb a "patter" then Ok PATTERN else Throw "abort") = Ok s) as Hsc.
  { intros a s. unfold scalar_words. rewrite !elem_of_cons, elem_of_nil.
    destruct (String.eqb_spec a "real") as [->|]; [|destruct (String.eqb_spec a "complex") as [->|]; [|destruct (String.eqb_spec a "integer") as [->|]; [|destruct (String.eqb_spec a "patter") as [->|]]]]; split; intros H.
    all: try (injection H as <-; auto 6); try (destruct H as [H|[H|[H|[H|[]]]]]; congruence); discriminate. }
  assert (forall a (s : mm_matrix), (a, s) ∈ matrix_words <-> (if String.eqb a "general" then Ok GENERAL else if String.eqb a "symmetric" then Ok SYMMETRIC
      else if String.eqb a "skewsymmetric" then Ok SKEWSYMMETRIC else if String.eqb a "hermitian" then Ok HERMITIAN else Throw "abort") = Ok s) as Hmt.
  { intros a s. unfold matrix_words. rewrite !elem_of_cons, elem_of_nil.
    destruct (String.eqb_spec a "general") as [->|]; [|destruct (String.eqb_spec a "symmetric") as [->|]; [|destruct (String.eqb_spec a "skewsymmetric") as [->|]; [|destruct (String.eqb_spec a "hermitian") as [->|]]]]; split; intros H.
    all: try (injection H as <-; auto 6); try (destruct H as [H|[H|[H|[H|[]]]]]; congruence); discriminate. }
  setoid_rewrite Hst. setoid_rewrite Hsc. setoid_rewrite Hmt. clear Hst Hsc Hmt. split.
  - intros d. split.
    + intros H. exists w1, w2, w3, w4. split; [reflexivity|].
      apply bind_Ok in H as (st & -> & H). apply bind_Ok in H as (sc & -> & H). apply bind_Ok in H as (mt & -> & H).
      injection H as <-. auto.
    + intros (o & a & b & c & E & H1 & H2 & H3). injection E as <- <- <- <-. rewrite H1, H2, H3. cbn [bind]. destruct d; reflexivity.
  - repeat match goal with |- context [if ?b then _ else _] => destruct b; cbn [bind]; eauto end.
Qed.
Example C07_case : splits "%%MatrixMarket matrix coordinate  real general" ["%%MatrixMarket"; "matrix"; "coordinate"; "real"; "general"]%string /\
  getMMDescription "%%MatrixMarket matrix coordinate  real general" = Ok (MMDesc COORDINATE REAL GENERAL) /\
  getMMDescription "%%MatrixMarket matrix coordinate real" = Throw "! Not enough terms in the header!".
Proof. split; [apply C07_words; reflexivity|]. split; reflexivity. Qed.
(** Two headers of the Matrix Market format that are not recognised: pattern and skew-symmetric
    matrices. (Both words are taken from the format's description.) *)
Theorem C07_pattern_refuted : forall line object storage symmetry, words line = ["%%MatrixMarket"; object; storage; "pattern"; symmetry]%string ->
  exists msg, getMMDescription line = Throw msg.
Proof.
  intros line object st sy E. unfold getMMDescription. rewrite E. simpl.
  destruct (String.eqb st "coordinate"); simpl; [eauto|]. destruct (String.eqb st "array"); simpl; eauto.
Qed.
Theorem C07_skew_symmetric_refuted : forall line object storage scalar, words line = ["%%MatrixMarket"; object; storage; scalar; "skew-symmetric"]%string ->
  exists msg, getMMDescription line = Throw msg.
Proof.
  intros line object st sc E. unfold getMMDescription. rewrite E. cbn [length Nat.eqb negb get lookup list_lookup bind]. simpl String.eqb.
  cbn [negb]. repeat match goal with |- context [if ?b then _ else _] => destruct b; cbn [bind]; eauto end.
Qed.
Example C07_skew_case : words "%%MatrixMarket matrix coordinate real skew-symmetric" = ["%%MatrixMarket"; "matrix"; "coordinate"; "real"; "skew-symmetric"]%string /\
  words "%%MatrixMarket matrix coordinate pattern general" = ["%%MatrixMarket"; "matrix"; "coordinate"; "pattern"; "general"]%string.
Proof. split; reflexivity. Qed.

(** ** C06 *)
(** a triple of the file, counted from 0 *)
Definition zero_based {F} (t : nat * nat * F) : entry F := Entry (t.1.1 - 1) (t.1.2 - 1) t.2.
(** every triple has indices in range *)
Definition in_range {F} (nr nc : nat) (body : list (nat * nat * F)) : Prop :=
  forall t, t ∈ body -> 1 <= t.1.1 <= nr /\ 1 <= t.1.2 <= nc.

Section Read.
  Context {F : Type}.
  Lemma read_body (body : list (nat * nat * F)) :
    mapr (fun i => let! (ri, ci, v) := get body i in Ok (Entry (ri - 1) (ci - 1) v)) (seq 0 (length body)) = Ok (zero_based <$> body).
  Proof.
    assert (ok (mapr (fun i => let! (ri, ci, v) := get body i in Ok (Entry (ri - 1) (ci - 1) v)) (seq 0 (length body))) (fun l => l = zero_based <$> body)) as H.
    { eapply ok_mono; [apply ok_mapr with (Q := fun i e => exists t, body !! i = Some t /\ e = zero_based t)|].
      - intros k i Hk. apply lookup_seq in Hk as [-> Hk]. rewrite Nat.add_0_l. destruct (lookup_lt_is_Some_2 body k Hk) as [[[ri ci] v] Ht].
        eapply ok_bind; [eapply ok_get; [exact Ht|exact eq_refl]|]. intros ? <-. simpl. exists (ri, ci, v). auto.
      - intros l [Ll H]. rewrite seq_length in Ll. apply list_eq_lt; [rewrite fmap_length; exact Ll|]. intros k Hk.
        destruct (lookup_lt_is_Some_2 l k Hk) as [e He]. destruct (H k e He) as (t & Ht & ->). rewrite He, list_lookup_fmap, Ht. reflexivity. }
    apply ok_inv in H as (l & -> & ->). reflexivity.
  Qed.
  Lemma ret_bind {A B} (a : A) (k : A -> nd B) o : nbind (nlift (Ok a)) k o <-> k a o.
  Proof.
    split.
    - intros (x & -> & H). exact H.
    - intros H. exists (Ok a). split; [reflexivity|exact H].
  Qed.
  (** the part common to all files with an acceptable header *)
  Lemma read_start (old : coo F) header nr nc extra body d o : getMMDescription header = Ok d ->
    storagetype d = COORDINATE -> scalartype d <> PATTERN -> matrixtype d = GENERAL ->
    readMatrixMarket old (MMFile header (nr :: nc :: length body :: extra) body) o <->
    nbind (sort_range rowind 0 (length (zero_based <$> body)) (zero_based <$> body)) (fun es => row_pointers (rowptr old) (length body) nr nc es) o.
  Proof.
    intros Hd H1 H2 H3. unfold readMatrixMarket. cbn [mm_header mm_sizes mm_body]. rewrite Hd, ret_bind. rewrite H1, H3.
    unfold getSizeFromMatrixMarket. rewrite H1. cbn [length Nat.ltb Nat.leb].
    assert (forall (X Y Z W : nd (coo F)), match scalartype d with REAL => X | COMPLEX => X | INTEGER => X | PATTERN => Y end o <-> X o) as Hm.
    { intros X Y _ _. destruct (scalartype d); tauto. }
    rewrite Hm by exact (fun _ => True). rewrite ret_bind. unfold get. cbn [lookup list_lookup]. rewrite !ret_bind. fold (@get (nat * nat * F)).
    change (fun i : nat => bind match body !! i with Some a => Ok a | None => UB end (fun '(ri, ci, v) => Ok (Entry (ri - 1) (ci - 1) v)))
      with (fun i : nat => let! (ri, ci, v) := get body i in Ok (Entry (ri - 1) (ci - 1) v)).
    rewrite read_body, ret_bind. reflexivity.
  Qed.
End Read.

(** Reading a file whose header announces a general coordinate matrix, whose entries are in
    range and which has an entry in every row: there is no undefined behaviour; whatever way
    the sort orders equal elements, the entries are those of the file counted from 0, sorted by row
    and, in each row, by column, and the row pointers delimit exactly the entries of
    each row ([coo_ok]). *)
Theorem C06_read : forall (F : Type) (old : coo F) header d nr nc extra body,
  getMMDescription header = Ok d -> storagetype d = COORDINATE -> scalartype d <> PATTERN -> matrixtype d = GENERAL ->
  0 < nr -> in_range nr nc body -> (forall i, 1 <= i <= nr -> exists t, t ∈ body /\ t.1.1 = i) ->
  nok (readMatrixMarket old (MMFile header (nr :: nc :: length body :: extra) body)) (fun c =>
    coo_ok c /\ nrows c = nr /\ ncols c = nc /\ entries c ≡ₚ zero_based <$> body /\
    (forall k1 k2 e1 e2, k1 < k2 -> entries c !! k1 = Some e1 -> entries c !! k2 = Some e2 ->
      rowind e1 < rowind e2 \/ rowind e1 = rowind e2 /\ colind e1 <= colind e2)).
Proof.
  intros F old header d nr nc extra body Hd H1 H2 H3 Hnr Hin Hall.
  assert (nok (nbind (sort_range rowind 0 (length (zero_based <$> body)) (zero_based <$> body)) (fun es => row_pointers (rowptr old) (length body) nr nc es)) (fun c =>
    coo_ok c /\ nrows c = nr /\ ncols c = nc /\ entries c ≡ₚ zero_based <$> body /\
    (forall k1 k2 e1 e2, k1 < k2 -> entries c !! k1 = Some e1 -> entries c !! k2 = Some e2 ->
      rowind e1 < rowind e2 \/ rowind e1 = rowind e2 /\ colind e1 <= colind e2))) as [[o Ho] H].
  2:{ split; [exists o; apply (read_start old header nr nc extra body d); auto|]. intros o' Ho'. apply H. apply (read_start old header nr nc extra body d) in Ho'; auto. }
  eapply nok_bind with (P := fun es => es ≡ₚ zero_based <$> body /\ forall i j x y, i < j -> es !! i = Some x -> es !! j = Some y -> rowind x <= rowind y).
  { apply nok_sort_range; [lia|]. intros mid Hm Hs. rewrite Nat.sub_0_r, drop_0, firstn_all in Hm. rewrite drop_all, app_nil_r. simpl. auto. }
  intros es [Hp Hs]. assert (length es = length body) as L by (rewrite (Permutation_length Hp), fmap_length; reflexivity). rewrite <- L.
  assert (forall e, e ∈ es <-> exists t, t ∈ body /\ e = zero_based t) as Hel.
  { intros e. rewrite Hp, elem_of_list_fmap. split; intros (t & A1 & A2); exists t; auto. }
  eapply nok_mono; [apply row_pointers_spec|].
  - intros ->. destruct (Hall 1 ltac:(lia)) as (t & Ht & _). destruct body; [apply elem_of_nil in Ht as []|discriminate].
  - intros e He. apply Hel in He as (t & Ht & ->). specialize (Hin t Ht). simpl. lia.
  - exact Hs.
  - intros i Hi. destruct (Hall (i + 1) ltac:(lia)) as (t & Ht & Et). exists (zero_based t). split; [apply Hel; eauto|simpl; lia].
  - intros c (Hc & Hpc & Hrn & Hcn & Hcol). split; [exact Hc|]. split; [exact Hrn|]. split; [exact Hcn|]. split; [rewrite Hpc; exact Hp|].
    intros k1 k2 e1 e2 H12 E1 E2. destruct (decide (rowind e1 = rowind e2)) as [Heq|Hne]; [right; split; [exact Heq|apply (Hcol k1 k2); auto]|left].
    destruct (co_row c Hc _ _ E1) as [R1 _], (co_row c Hc _ _ E2) as [R2 _].
    pose proof (proj1 (crp_delim c Hc _ _ _ R1 E1) eq_refl). pose proof (proj1 (crp_delim c Hc _ _ _ R2 E2) eq_refl).
    destruct (decide (rowind e1 < rowind e2)); [assumption|]. pose proof (crp_mono c Hc (rowind e2 + 1) (rowind e1) ltac:(lia) ltac:(lia)). lia.
Qed.
(** Reading and then converting to sparse rows: the matrix has the file's entries *)
Theorem C06_read_convert : forall (F : Type) (O : SOps F) (old : coo F) header d n extra body gp gi gv gd,
  getMMDescription header = Ok d -> storagetype d = COORDINATE -> scalartype d <> PATTERN -> matrixtype d = GENERAL ->
  0 < n -> in_range n n body -> (forall i, 1 <= i <= n -> exists t, t ∈ body /\ t.1.1 = i) ->
  (forall k1 k2 t1 t2, body !! k1 = Some t1 -> body !! k2 = Some t2 -> t1.1 = t2.1 -> k1 = k2) ->
  nok (ndo c := readMatrixMarket old (MMFile header (n :: n :: length body :: extra) body) in nlift (convertToCSR gp gi gv gd c)) (fun M =>
    nbrows M = n /\ wf_pat M /\ wf_sorted M /\ wf_vals 1 M /\
    forall i j, i < n -> j < n ->
      (forall v, (i + 1, j + 1, v) ∈ body -> dense M i j = v) /\ ((forall v, (i + 1, j + 1, v) ∉ body) -> dense M i j = s0)).
Proof.
  intros F O old header d n extra body gp gi gv gd Hd H1 H2 H3 Hnr Hin Hall Hdup.
  eapply nok_bind; [apply (C06_read F old header d n n extra body); auto|]. intros c (Hc & Hrn & Hcn & Hp & Hs).
  apply nok_lift. destruct (C04_csr F c gp gi gv gd Hc) as (M & E & Hn & _ & _ & _ & _ & _ & _ & _ & _ & _ & _ & _ & _ & Hwf & Hsrt).
  assert (forall i j v, Entry i j v ∈ entries c <-> (i + 1, j + 1, v) ∈ body) as Hel.
  { intros i j v. rewrite Hp, elem_of_list_fmap. split.
    - intros (t & Et & Ht). pose proof (Hin t Ht). destruct t as [[a b] w]. unfold zero_based in Et. simpl in *. injection Et as -> -> ->.
      replace (a - 1 + 1) with a by lia. replace (b - 1 + 1) with b by lia. exact Ht.
    - intros Ht. exists (i + 1, j + 1, v). split; [|exact Ht]. unfold zero_based. simpl. f_equal; lia. }
  assert (NoDup ((fun t => t.1) <$> body)) as Hnd.
  { apply NoDup_fmap_2_strong; [|]. 
    - intros t1 t2 Ht1 Ht2 Et. apply elem_of_list_lookup in Ht1 as [k1 K1], Ht2 as [k2 K2]. pose proof (Hdup _ _ _ _ K1 K2 Et). congruence.
    - apply NoDup_alt. intros k1 k2 t K1 K2. apply (Hdup _ _ _ _ K1 K2 eq_refl). }
  assert (NoDup ((fun e => (rowind e, colind e)) <$> entries c)) as Hndc.
  { rewrite Hp. rewrite <- list_fmap_compose. change ((fun e => (rowind e, colind e)) ∘ zero_based) with (fun t : nat * nat * F => (t.1.1 - 1, t.1.2 - 1)).
    apply NoDup_alt. intros k1 k2 x K1 K2. apply list_lookup_fmap_inv in K1 as (t1 & -> & K1), K2 as (t2 & E2 & K2).
    pose proof (Hin t1 (elem_of_list_lookup_2 _ _ _ K1)). pose proof (Hin t2 (elem_of_list_lookup_2 _ _ _ K2)).
    apply (Hdup _ _ _ _ K1 K2). injection E2 as E2 E3. destruct t1 as [[a1 b1] v1], t2 as [[a2 b2] v2]. simpl in *. f_equal; lia. }
  assert (coo_nodup c) as Hndp.
  { intros k1 k2 e1 e2 K1 K2 R1 R2. apply (proj1 (NoDup_alt _) Hndc k1 k2 (rowind e1, colind e1)); rewrite list_lookup_fmap, ?K1, ?K2; simpl; congruence. }
  assert (coo_sorted c) as Hsc.
  { intros k1 k2 e1 e2 H12 K1 K2 R. destruct (Hs k1 k2 e1 e2 H12 K1 K2) as [|[_ Hle]]; [lia|].
    destruct (decide (colind e1 = colind e2)) as [Eq|]; [|lia]. pose proof (Hndp _ _ _ _ K1 K2 R Eq). lia. }
  rewrite E. simpl. destruct (Hwf ltac:(lia)) as [Hw Hv]. split; [lia|]. split; [exact Hw|]. split; [apply Hsrt, Hsc|]. split; [exact Hv|].
  intros i j Hi Hj. pose proof (C04_same_matrix F O c gp gi gv gd M Hc Hndp E i j ltac:(lia)) as Hx.
  destruct Hx as [Hx|[Hx Hno]].
  - apply Hel in Hx as Hx'. split; [|intros Hno; destruct (Hno _ Hx')]. intros v Hv'.
    apply elem_of_list_lookup in Hx' as [k1 K1], Hv' as [k2 K2]. pose proof (Hdup _ _ _ _ K1 K2 eq_refl) as <-. congruence.
  - split; [|auto]. intros v Hv'. destruct (Hno v). apply Hel, Hv'.
Qed.
(** 3x3, in no order:  (3,1) 8  (1,3) 5  (2,2) 6  (1,1) 7  (3,3) 9 *)
Definition exF : list (nat * nat * Qc) := [(3, 1, q 8); (1, 3, q 5); (2, 2, q 6); (1, 1, q 7); (3, 3, q 9)].
Example C06_case : getMMDescription "%%MatrixMarket matrix coordinate real general" = Ok (MMDesc COORDINATE REAL GENERAL) /\
  in_range 3 3 exF /\ (forall i, 1 <= i <= 3 -> exists t, t ∈ exF /\ t.1.1 = i) /\
  (forall k1 k2 t1 t2, exF !! k1 = Some t1 -> exF !! k2 = Some t2 -> t1.1 = t2.1 -> k1 = k2).
Proof.
  split; [reflexivity|]. split; [|split].
  - intros t Ht. unfold exF in Ht. rewrite !elem_of_cons, elem_of_nil in Ht. destruct Ht as [-> | [-> | [-> | [-> | [-> | []]]]]]; simpl; lia.
  - intros i Hi. destruct (decide (i = 1)) as [->|]; [exists (1, 3, q 5)|destruct (decide (i = 2)) as [->|]; [exists (2, 2, q 6)|exists (3, 1, q 8)]];
      (split; [unfold exF; rewrite !elem_of_cons; auto 10|simpl; lia]).
  - intros k1 k2 t1 t2 K1 K2. lk k1 K1; lk k2 K2; simpl in *; intros; try discriminate; reflexivity.
Qed.
(** A file with at least one entry and an empty row: the only outcome is undefined behaviour
    (the sort is given an iterator that points nowhere). *)
Theorem C06_empty_row_refuted : forall (F : Type) (old : coo F) header d nr nc extra body r,
  getMMDescription header = Ok d -> storagetype d = COORDINATE -> scalartype d <> PATTERN -> matrixtype d = GENERAL ->
  in_range nr nc body -> body <> [] -> 1 <= r <= nr -> (forall t, t ∈ body -> t.1.1 <> r) ->
  only_UB (readMatrixMarket old (MMFile header (nr :: nc :: length body :: extra) body)).
Proof.
  intros F old header d nr nc extra body r Hd H1 H2 H3 Hin Hne Hr Hno.
  assert (only_UB (nbind (sort_range rowind 0 (length (zero_based <$> body)) (zero_based <$> body)) (fun es => row_pointers (rowptr old) (length body) nr nc es))) as [[o Ho] H].
  2:{ split; [exists o; apply (read_start old header nr nc extra body d); auto|]. intros o' Ho'. apply H. apply (read_start old header nr nc extra body d) in Ho'; auto. }
  eapply only_UB_bind with (P := fun es => es ≡ₚ zero_based <$> body /\ forall i j x y, i < j -> es !! i = Some x -> es !! j = Some y -> rowind x <= rowind y).
  { apply nok_sort_range; [lia|]. intros mid Hm Hs. rewrite Nat.sub_0_r, drop_0, firstn_all in Hm. rewrite drop_all, app_nil_r. simpl. auto. }
  intros es [Hp Hs]. assert (length es = length body) as L by (rewrite (Permutation_length Hp), fmap_length; reflexivity). rewrite <- L.
  assert (forall e, e ∈ es -> exists t, t ∈ body /\ e = zero_based t) as Hel.
  { intros e. rewrite Hp, elem_of_list_fmap. intros (t & A1 & A2); exists t; auto. }
  apply (row_pointers_empty nr nc (rowptr old) es) with (r := r - 1).
  - intros ->. destruct body; [tauto|discriminate].
  - intros e He. apply Hel in He as (t & Ht & ->). specialize (Hin t Ht). simpl. lia.
  - exact Hs.
  - lia.
  - intros e He. apply Hel in He as (t & Ht & ->). specialize (Hin t Ht). specialize (Hno t Ht). simpl. lia.
Qed.
(** other kinds of files are refused *)
Theorem C06_refused : forall (F : Type) (old : coo F) file d, getMMDescription (mm_header file) = Ok d ->
  storagetype d <> COORDINATE \/ scalartype d = PATTERN \/ matrixtype d <> GENERAL ->
  exists msg, forall o, readMatrixMarket old file o <-> o = Throw msg.
Proof.
  intros F old file d Hd H. unfold readMatrixMarket. rewrite Hd.
  destruct (storagetype d) eqn:E1; [destruct (scalartype d) eqn:E2; [destruct (matrixtype d) eqn:E3|destruct (matrixtype d) eqn:E3|destruct (matrixtype d) eqn:E3|]|];
    try (exfalso; destruct H as [H|[H|H]]; congruence);
    eexists; intros o; rewrite ret_bind, ?E1, ?E2, ?E3; unfold nlift; reflexivity.
Qed.
(** the file of [C06_case] without its entry (2,2), and a symmetric one *)
Example C06_empty_row_case : let body := [(3, 1, q 8); (1, 3, q 5); (1, 1, q 7); (3, 3, q 9)] in
  in_range 3 3 body /\ body <> [] /\ (forall t, t ∈ body -> t.1.1 <> 2).
Proof.
  split; [|split; [discriminate|]]; intros t Ht; rewrite !elem_of_cons, elem_of_nil in Ht; destruct Ht as [-> | [-> | [-> | [-> | []]]]]; simpl; lia.
Qed.
Example C06_refused_case : exists d, getMMDescription "%%MatrixMarket matrix coordinate real symmetric" = Ok d /\ matrixtype d <> GENERAL.
Proof. eexists. split; [reflexivity|discriminate]. Qed.

Print Assumptions C07_words.
Print Assumptions C07_header.
Print Assumptions C07_pattern_refuted.
Print Assumptions C07_skew_symmetric_refuted.
Print Assumptions C06_read.
Print Assumptions C06_read_convert.
Print Assumptions C06_empty_row_refuted.
Print Assumptions C06_refused.
