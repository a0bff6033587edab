(** * PropPoissonSetup: the control file of the Poisson test problem (C110) *)
From Coq Require Import ZArith Ascii String Lia QArith.Qcanon.
From Verif Require Import Base Alg Coo CooFacts MMText PropMMText PetscError Poisson PoissonSetup Inst.
Open Scope nat_scope.

#[local] Instance ascii_eq : EqDecision ascii := ascii_dec.

(** ** Specification *)
Section Spec.
  Context {F : Type}.
  Variable real_text : string -> F -> Prop.
  (** what a control file consists of *)
  Inductive item := Word (w : string) | Int (n : Z) | Real (x : F).
  Definition no_blank (w : string) : Prop := w <> ""%string /\ forall c, c ∈ list_ascii_of_string w -> c ∉ blanks.
  (** how an item is written: words have fewer than 50 characters *)
  Inductive item_text : item -> string -> Prop :=
  | is_word w : no_blank w -> String.length w < 50 -> item_text (Word w) w
  | is_integer n w : int_text w n -> is_int n -> item_text (Int n) w
  | is_real x w : real_text w x -> item_text (Real x) w.
  (** the items, separated by blanks, and then [tail] *)
  Inductive control_text (tail : string) : list item -> string -> Prop :=
  | ct_end : control_text tail [] tail
  | ct_item b w i is s : blank_text b -> item_text i w -> word_end s -> control_text tail is s -> control_text tail (i :: is) (b ++ w ++ s).
  (** a whole file: a word before each group; the type of grid, three numbers of points, the first and the last point *)
  Definition layout (t1 g t2 t3 t4 : string) (n0 n1 n2 : Z) (a0 a1 a2 b0 b1 b2 : F) : list item :=
    [Word t1; Word g; Word t2; Int n0; Int n1; Int n2; Word t3; Real a0; Real a1; Real a2; Word t4; Real b0; Real b1; Real b2].
  (** the value at place [i] of a file with only [n] items *)
  Definition present {A} (n i : nat) (x : A) : option A := if i <? n then Some x else None.
End Spec.

(** ** Facts *)
Lemma str_app_nil (s : string) : (s ++ "")%string = s.
Proof. induction s as [|c s IH]; [reflexivity|]. cbn [append]. f_equal. exact IH. Qed.
Lemma take_word_text w s : (forall c, c ∈ list_ascii_of_string w -> c ∉ blanks) -> word_end s -> take_word (w ++ s) = (w, s).
Proof.
  intros Hw Hs. induction w as [|c w IH].
  - destruct Hs as [-> |(c & s' & -> & Hc)]; [reflexivity|]. cbn [append take_word]. rewrite space_blank by exact Hc. reflexivity.
  - cbn [append take_word]. rewrite not_blank by (apply Hw; left). rewrite IH; [reflexivity|]. intros x Hx. apply Hw. right. exact Hx.
Qed.
Lemma skipws_all b : blank_text b -> skipws b = ""%string.
Proof. intros H. rewrite <- (str_app_nil b). rewrite skipws_blank by exact H. reflexivity. Qed.
Lemma scanf_s_word b w s : blank_text b -> no_blank w -> word_end s ->
  scanf_s (b ++ w ++ s) = if String.length w + 1 <=? 50 then Ok (1%Z, Some w, s) else UB.
Proof.
  intros Hb [Hne Hw] Hs. unfold scanf_s. rewrite skipws_blank by exact Hb. pose proof (take_word_text w s Hw Hs) as E.
  destruct w as [|c w]; [destruct Hne; reflexivity|]. rewrite skipws_word by (apply Hw; left). cbn [append] in *. rewrite E. reflexivity.
Qed.
Lemma scanf_s_end b : blank_text b -> scanf_s b = Ok (-1, None, ""%string)%Z.
Proof. intros Hb. unfold scanf_s. rewrite skipws_all by exact Hb. reflexivity. Qed.
Lemma scanf_d_int b w n s : blank_text b -> int_text w n -> is_int n -> word_end s -> scanf_d (b ++ w ++ s) = Ok (1%Z, Some n, s).
Proof.
  intros Hb Hw Hn Hs. unfold scanf_d. rewrite skipws_blank by exact Hb. pose proof (scan_int_text _ _ _ Hw Hs) as E.
  destruct (int_first _ _ Hw) as (c & w' & -> & Hc). rewrite skipws_word by exact Hc. cbn [append] in *. rewrite E, (is_int_fits _ Hn). reflexivity.
Qed.
Lemma scanf_d_end b : blank_text b -> scanf_d b = Ok (-1, None, ""%string)%Z.
Proof. intros Hb. unfold scanf_d. rewrite skipws_all by exact Hb. reflexivity. Qed.
Lemma blank_empty : blank_text "". Proof. intros c H. inversion H. Qed.

Section Facts.
  Context {F : Type} {O : SOps F}.
  Variable real_text : string -> F -> Prop.
  Variable scan_real : string -> F * bool * string.
  Hypothesis Hreal : understands real_text scan_real.
  Lemma scanf_lf_real b w x s : blank_text b -> real_text w x -> word_end s -> scanf_lf scan_real (b ++ w ++ s) = Ok (1%Z, Some x, s).
  Proof.
    intros Hb Hw Hs. unfold scanf_lf. rewrite skipws_blank by exact Hb. destruct (Hreal _ _ Hw) as ((c & w' & -> & Hc) & H). specialize (H s Hs).
    rewrite skipws_word by exact Hc. cbn [append] in *. rewrite H. reflexivity.
  Qed.
  Lemma scanf_lf_end b : blank_text b -> scanf_lf scan_real b = Ok (-1, None, ""%string)%Z.
  Proof. intros Hb. unfold scanf_lf. rewrite skipws_all by exact Hb. reflexivity. Qed.

  (** one step, on a file whose first item has the right kind *)
  Lemma next_word tail w its s : control_text real_text tail (Word w :: its) s -> exists r, next scanf_s s = Ok (Some w, r) /\ control_text real_text tail its r.
  Proof.
    inversion 1 as [|b w' i is r Hb Hi He Hr]; subst. inversion Hi; subst. exists r. split; [|exact Hr].
    unfold next. rewrite scanf_s_word by assumption. case Nat.leb_spec; intros ?; [reflexivity|lia].
  Qed.
  Lemma next_int tail n its s : control_text real_text tail (Int n :: its) s -> exists r, next scanf_d s = Ok (Some n, r) /\ control_text real_text tail its r.
  Proof.
    inversion 1 as [|b w' i is r Hb Hi He Hr]; subst. inversion Hi; subst. exists r. split; [|exact Hr].
    unfold next. rewrite (scanf_d_int _ _ n) by assumption. reflexivity.
  Qed.
  Lemma next_real tail x its s : control_text real_text tail (Real x :: its) s -> exists r, next (scanf_lf scan_real) s = Ok (Some x, r) /\ control_text real_text tail its r.
  Proof.
    inversion 1 as [|b w' i is r Hb Hi He Hr]; subst. inversion Hi; subst. exists r. split; [|exact Hr].
    unfold next. rewrite (scanf_lf_real _ _ x) by assumption. reflexivity.
  Qed.
  Lemma next_s_end b : blank_text b -> next scanf_s b = Ok (None, ""%string). Proof. intros H. unfold next. rewrite scanf_s_end by exact H. reflexivity. Qed.
  Lemma next_d_end b : blank_text b -> next scanf_d b = Ok (None, ""%string). Proof. intros H. unfold next. rewrite scanf_d_end by exact H. reflexivity. Qed.
  Lemma next_lf_end b : blank_text b -> next (scanf_lf scan_real) b = Ok (None, ""%string). Proof. intros H. unfold next. rewrite scanf_lf_end by exact H. reflexivity. Qed.
End Facts.

(** the items are eaten one after the other; then the end of the file *)
Ltac eat Hreal H :=
  let r := fresh "s" in let E := fresh "E" in let H1 := fresh "T" in
  first [ destruct (next_word _ _ _ _ _ H) as (r & E & H1) | destruct (next_int _ _ _ _ _ H) as (r & E & H1)
        | destruct (next_real _ _ Hreal _ _ _ _ H) as (r & E & H1) ];
  rewrite E; clear E H; rename H1 into H; cbn [bind].

Section Props.
  Context {F : Type} {O : SOps F}.
  Variable real_text : string -> F -> Prop.
  Variable scan_real : string -> F * bool * string.
  Hypothesis Hreal : understands real_text scan_real.
  Variables (t1 g t2 t3 t4 : string) (n0 n1 n2 : Z) (a0 a1 a2 b0 b1 b2 : F).
  Notation all := (layout t1 g t2 t3 t4 n0 n1 n2 a0 a1 a2 b0 b1 b2).

  Lemma read_prefix n tail s : blank_text tail -> control_text real_text tail (take n all) s ->
    readInputFile scan_real false (Some s) =
      Ok (MeshSpec [present n 3 n0; present n 4 n1; present n 5 n2] [present n 7 a0; present n 8 a1; present n 9 a2]
                   [present n 11 b0; present n 12 b1; present n 13 b2] (present n 1 g)).
  Proof.
    intros Ht H. unfold readInputFile, next3.
    do 14 (destruct n as [|n];
      [cbn [take layout] in H; repeat (eat Hreal H); inversion H; subst;
       rewrite ?(next_s_end _ Ht), ?(next_d_end _ Ht), ?(next_lf_end scan_real _ Ht); cbn [bind];
       repeat (progress (rewrite ?(next_s_end _ blank_empty), ?(next_d_end _ blank_empty), ?(next_lf_end scan_real _ blank_empty); cbn [bind])); reflexivity|]).
    cbn [take layout] in H. repeat (eat Hreal H). reflexivity.
  Qed.
  Lemma read_whole rank0 tail s : control_text real_text tail all s ->
    readInputFile scan_real rank0 (Some s) = Ok (MeshSpec [Some n0; Some n1; Some n2] [Some a0; Some a1; Some a2] [Some b0; Some b1; Some b2] (Some g)).
  Proof. intros H. unfold readInputFile, next3. unfold layout in H. repeat (eat Hreal H). destruct rank0; reflexivity. Qed.

  Lemma read_long k b w r s : k ∈ [0; 1; 2; 6; 10] -> blank_text b -> no_blank w -> 50 <= String.length w -> word_end r ->
    control_text real_text (b ++ w ++ r) (take k all) s -> forall rank0, readInputFile scan_real rank0 (Some s) = UB.
  Proof.
    intros Hk Hb Hw Hl Hr H rank0. assert (next scanf_s (b ++ w ++ r) = UB) as E.
    { unfold next. rewrite scanf_s_word by assumption. case Nat.leb_spec; intros ?; [lia|reflexivity]. }
    remember (b ++ w ++ r)%string as tail eqn:Et. clear Et. unfold readInputFile, next3.
    repeat (apply elem_of_cons in Hk as [-> |Hk];
      [cbn [take layout] in H; repeat (eat Hreal H); inversion H; subst; rewrite E; reflexivity|]). inversion Hk.
  Qed.

  Lemma read_bad_int k tail s x : k ∈ [3; 4; 5] -> next scanf_d tail = x -> (forall a, x <> Ok a) ->
    control_text real_text tail (take k all) s -> forall rank0, readInputFile scan_real rank0 (Some s) = match x with Ok _ => UB | UB => UB | Throw m => Throw m | Fuel => Fuel end.
  Proof.
    intros Hk E Hx H rank0. unfold readInputFile, next3.
    repeat (apply elem_of_cons in Hk as [-> |Hk];
      [cbn [take layout] in H; repeat (eat Hreal H); inversion H; subst; destruct (next scanf_d _); [destruct (Hx a eq_refl)|reflexivity..]|]). inversion Hk.
  Qed.
  Lemma read_bad_real k tail s m : k ∈ [7; 8; 9; 11; 12; 13] -> next (scanf_lf scan_real) tail = Throw m ->
    control_text real_text tail (take k all) s -> forall rank0, readInputFile scan_real rank0 (Some s) = Throw m.
  Proof.
    intros Hk E H rank0. unfold readInputFile, next3.
    repeat (apply elem_of_cons in Hk as [-> |Hk];
      [cbn [take layout] in H; repeat (eat Hreal H); inversion H; subst; rewrite E; reflexivity|]). inversion Hk.
  Qed.
End Props.

Lemma i32_ok z : is_int z -> i32 z = Ok z.
Proof. intros H. unfold i32. rewrite is_int_fits by exact H. reflexivity. Qed.
Lemma not_int z : ~ is_int z -> fits_int z = false.
Proof. intros H. unfold fits_int, int_min, int_max. apply not_true_iff_false. rewrite andb_true_iff, !Z.leb_le. intros H'. apply H. unfold is_int. lia. Qed.
(** with at least three points in each direction nothing overflows if the number of points is an [int] *)
Lemma create_ok dmda n0 n1 n2 : (3 <= n0 -> 3 <= n1 -> 3 <= n2 -> n0 * n1 * n2 <= 2147483647 ->
  createMeshAndDMDA dmda n0 n1 n2 = if dmda (n0 - 2) (n1 - 2) (n2 - 2) =? 0 then Ok (inl ((n0 - 2) * (n1 - 2) * (n2 - 2))) else Ok (inr (dmda (n0 - 2) (n1 - 2) (n2 - 2))))%Z.
Proof.
  intros H0 H1 H2 H. unfold createMeshAndDMDA.
  assert (exists p, n0 = p + 3 /\ 0 <= p)%Z as (p & -> & Hp) by (exists (n0 - 3)%Z; lia).
  assert (exists p, n1 = p + 3 /\ 0 <= p)%Z as (p1 & -> & Hp1) by (exists (n1 - 3)%Z; lia).
  assert (exists p, n2 = p + 3 /\ 0 <= p)%Z as (p2 & -> & Hp2) by (exists (n2 - 3)%Z; lia).
  assert (0 <= p * p1 /\ 0 <= p * p2 /\ 0 <= p1 * p2 /\ 0 <= p * p1 * p2)%Z as (K1 & K2 & K3 & K4) by (repeat split; repeat apply Z.mul_nonneg_nonneg; assumption).
  assert (forall z, (-2147483648 <= z <= 2147483647 -> i32 z = Ok z)%Z) as K by (intros z ?; apply i32_ok; assumption).
  clear H0 H1 H2.
  assert (H' : (p * p1 * p2 + 3 * (p * p1) + 3 * (p * p2) + 3 * (p1 * p2) + 9 * p + 9 * p1 + 9 * p2 + 27 <= 2147483647)%Z) by lia. clear H.
  repeat (rewrite K by lia; cbn [bind]).
  destruct (_ =? 0)%Z; [|reflexivity]. do 2 f_equal. ring.
Qed.

(** ** C110: the control file of the Poisson problem *)
Section C110.
  Context {F : Type} {O : SOps F}.
  Variable real_text : string -> F -> Prop.
  Variable scan_real : string -> F * bool * string.
  Hypothesis Hreal : understands real_text scan_real.
  Variables (ofint : Z -> F) (cosine : F -> F) (pi : F) (dmda : Z -> Z -> Z -> Z).
  Variables (t1 g t2 t3 t4 : string) (n0 n1 n2 : Z) (a0 a1 a2 b0 b1 b2 : F).
  Notation all := (layout t1 g t2 t3 t4 n0 n1 n2 a0 a1 a2 b0 b1 b2).
  Notation setup := (setup_mesh scan_real ofint cosine pi dmda).

  (** A complete file, whatever follows it, gives the mesh it describes: the Chebyshev points if and only if the second word is "chebyshev". *)
  Theorem C110_reads rank0 tail s : control_text real_text tail all s -> (3 <= n0 /\ 3 <= n1 /\ 3 <= n2)%Z -> (n0 * n1 * n2 <= 2147483647)%Z -> dmda (n0 - 2)%Z (n1 - 2)%Z (n2 - 2)%Z = 0%Z ->
    exists axis, setup rank0 (Some s) = Ok (Mesh (axis a0 b0 n0) (axis a1 b1 n1) (axis a2 b2 n2), (n0 - 2) * (n1 - 2) * (n2 - 2))%Z /\
      (g = "chebyshev"%string -> forall lo hi n, axis lo hi n = chebyshev_axis ofint cosine pi lo hi (Z.to_nat n)) /\
      (g <> "chebyshev"%string -> forall lo hi n, axis lo hi n = uniform_axis ofint lo hi (Z.to_nat n)).
  Proof.
    intros H (H0 & H1 & H2) Hp Hd. unfold setup_mesh. rewrite (read_whole _ _ Hreal _ _ _ _ _ _ _ _ _ _ _ _ _ _ _ _ _ H). cbn [bind].
    unfold createMesh. cbn [npdim rmin rmax gridtype determinate bind]. rewrite create_ok by auto. rewrite Hd. cbn [Z.eqb bind].
    eexists (fun lo hi n => _). split; [reflexivity|]. cbn beta. split; intros Hg lo hi n.
    - subst g. reflexivity.
    - apply String.eqb_neq in Hg. rewrite Hg. reflexivity.
  Qed.

  (** A number that is missing a digit or sign where an integer belongs, or that the library cannot convert where a real number belongs, is an exception. *)
  Theorem C110_bad_number rank0 k b c r s : blank_text b -> c ∉ blanks -> control_text real_text (b ++ String c r) (take k all) s ->
    (k ∈ [3; 4; 5] /\ c ∉ list_ascii_of_string "+-0123456789") \/ (k ∈ [7; 8; 9; 11; 12; 13] /\ snd (fst (scan_real (String c r))) = false) ->
    setup rank0 (Some s) = Throw "Input not given: Error while reading file + 0".
  Proof.
    intros Hb Hc H [(Hk & Hn)|(Hk & Hn)]; unfold setup_mesh.
    - erewrite (read_bad_int real_text scan_real); [| exact Hk | | | exact H].
      2: { unfold next, scanf_d. rewrite skipws_blank by exact Hb. pose proof (skipws_word c r "" Hc) as E. rewrite str_app_nil in E. rewrite E.
           assert (scan_int (String c r) = None) as ->; [|reflexivity].
           assert (is_digit c = false /\ Ascii.eqb c "-" = false /\ Ascii.eqb c "+" = false) as (D & M & P).
           { clear - Hn. assert (c ∈ list_ascii_of_string "+-0123456789" \/ (is_digit c = false /\ Ascii.eqb c "-" = false /\ Ascii.eqb c "+" = false)) as [?|?]; [|tauto..].
             assert (bool_decide (c ∈ list_ascii_of_string "+-0123456789") || (negb (is_digit c) && negb (Ascii.eqb c "-") && negb (Ascii.eqb c "+")) = true) as E
               by (destruct c as [[] [] [] [] [] [] [] []]; reflexivity).
             apply orb_true_iff in E as [E|E]; [left; apply (bool_decide_eq_true_1 _ E)|right].
             rewrite !andb_true_iff, !negb_true_iff in E. tauto. }
           unfold scan_int. rewrite M, P. cbn [scan_digits]. rewrite D. reflexivity. }
      + reflexivity.
      + intros a. discriminate.
    - erewrite (read_bad_real _ _ Hreal); [| exact Hk | | exact H]; [reflexivity|].
      unfold next, scanf_lf. rewrite skipws_blank by exact Hb. pose proof (skipws_word c r "" Hc) as E. rewrite str_app_nil in E. rewrite E.
      destruct (scan_real (String c r)) as [[x ok] r']. cbn in Hn. subst ok. reflexivity.
  Qed.

  (** A file that ends too early is not: no exception is thrown. What was not read is indeterminate; it is then used. *)
  Theorem C110_truncated_refuted n tail s : n < 14 -> blank_text tail -> control_text real_text tail (take n all) s ->
    readInputFile scan_real false (Some s) =
      Ok (MeshSpec [present n 3 n0; present n 4 n1; present n 5 n2] [present n 7 a0; present n 8 a1; present n 9 a2]
                   [present n 11 b0; present n 12 b1; present n 13 b2] (present n 1 g)) /\
    forall rank0, setup rank0 (Some s) = UB.
  Proof.
    intros Hn Ht H. pose proof (read_prefix _ _ Hreal _ _ _ _ _ _ _ _ _ _ _ _ _ _ _ _ _ Ht H) as E. split; [exact E|]. intros rank0.
    assert (E13 : present n 13 b2 = None) by (unfold present; destruct (Nat.ltb_spec 13 n) as [?|?]; [lia|reflexivity]).
    rewrite E13 in E. unfold setup_mesh.
    assert (readInputFile scan_real rank0 (Some s) = UB \/ exists ms, readInputFile scan_real rank0 (Some s) = Ok ms /\ createMesh ofint cosine pi dmda ms = UB) as [-> |(ms & -> & E')]; [|reflexivity|exact E'].
    destruct rank0.
    - left. revert E. unfold readInputFile, next3.
      repeat match goal with |- context [next ?f ?x] => destruct (next f x) as [[? ?]| | |]; cbn [bind]; try discriminate end.
      intros E. injection E. intros. subst. cbn [app mapr bind determinate].
      repeat match goal with |- context [determinate ?x] => destruct x; cbn [determinate bind]; try reflexivity end.
    - right. eexists. split; [exact E|]. unfold createMesh. cbn [npdim rmin rmax gridtype].
      repeat match goal with |- context [determinate ?x] => destruct x; cbn [determinate bind]; try reflexivity end;
        destruct (createMeshAndDMDA _ _ _ _) as [[?|?]| | |] eqn:Ec; cbn [bind destroy]; try reflexivity;
        unfold createMeshAndDMDA, i32 in Ec; repeat (destruct (fits_int _); cbn [bind] in Ec; try discriminate); destruct (_ =? 0)%Z in Ec; discriminate.
  Qed.

  (** A word of 50 or more characters is written beyond the end of the array, wherever a word belongs. *)
  Theorem C110_long_word_refuted rank0 k b w r s : k ∈ [0; 1; 2; 6; 10] -> blank_text b -> no_blank w -> 50 <= String.length w -> word_end r ->
    control_text real_text (b ++ w ++ r) (take k all) s -> setup rank0 (Some s) = UB.
  Proof. intros Hk Hb Hw Hl Hr H. unfold setup_mesh. rewrite (read_long _ _ Hreal _ _ _ _ _ _ _ _ _ _ _ _ _ _ _ _ _ _ _ Hk Hb Hw Hl Hr H). reflexivity. Qed.

  (** A number of points that is not an [int] is undefined behaviour. *)
  Theorem C110_large_number_refuted rank0 k b w n r s : k ∈ [3; 4; 5] -> blank_text b -> int_text w n -> ~ is_int n -> word_end r ->
    control_text real_text (b ++ w ++ r) (take k all) s -> setup rank0 (Some s) = UB.
  Proof.
    intros Hk Hb Hw Hn Hr H. unfold setup_mesh. erewrite (read_bad_int real_text scan_real _ _ _ _ _ _ _ _ _ _ _ _ _ _ _ _ _ UB); [reflexivity|exact Hk| |discriminate|exact H].
    unfold next, scanf_d. rewrite skipws_blank by exact Hb. pose proof (scan_int_text _ _ _ Hw Hr) as E.
    destruct (int_first _ _ Hw) as (c & w' & -> & Hc). rewrite skipws_word by exact Hc. cbn [append] in *. rewrite E, not_int by exact Hn. reflexivity.
  Qed.

  (** A file that cannot be opened is used all the same. *)
  Theorem C110_missing_refuted rank0 : setup rank0 None = UB.
  Proof. reflexivity. Qed.

  (** If PETSc refuses the numbers of points, the exception destroys a mesh whose arrays were never allocated: null is dereferenced. *)
  Theorem C110_petsc_error_refuted rank0 tail s : control_text real_text tail all s -> dmda (n0 - 2)%Z (n1 - 2)%Z (n2 - 2)%Z <> 0%Z -> setup rank0 (Some s) = UB.
  Proof.
    intros H Hd. unfold setup_mesh. rewrite (read_whole _ _ Hreal _ _ _ _ _ _ _ _ _ _ _ _ _ _ _ _ _ H). cbn [bind].
    unfold createMesh. cbn [npdim rmin rmax gridtype determinate bind]. unfold createMeshAndDMDA, i32.
    repeat (destruct (fits_int _); cbn [bind]; [|reflexivity]). apply Z.eqb_neq in Hd. rewrite Hd. reflexivity.
  Qed.
End C110.

(** ** A case: the library's file tests/poisson3d-fd/input/small_poisson.control, with fewer points and whole numbers *)
Definition exFile : string := lines ["Type-of-grid('chebyshev'-or-'uniform')"; "uniform"; "Number-of-points-in-x-y-and-z"; "3 4 3";
  "Coords-of-first-point-in-x-y-and-z"; "-1 -2 -3"; "Coords-of-last-point-in-x-y-and-z"; "1 1 3"; "Number-of-repititions-of-solver"; "1"]%string.
Definition exTail : string := (String "010" (lines ["Number-of-repititions-of-solver"; "1"]%string)).
Definition exItems : list (item (F := Qc)) := layout "Type-of-grid('chebyshev'-or-'uniform')" "uniform" "Number-of-points-in-x-y-and-z"
  "Coords-of-first-point-in-x-y-and-z" "Coords-of-last-point-in-x-y-and-z" 3 4 3 (q (-1)) (q (-2)) (q (-3)) (q 1) (q 1) (q 3).
Lemma no_blank_dec w : (negb (String.eqb w "") && forallb (fun c => negb (is_space c)) (list_ascii_of_string w)) = true -> no_blank w.
Proof.
  rewrite andb_true_iff, negb_true_iff, forallb_forall. intros (H1 & H2). split; [apply String.eqb_neq, H1|]. intros c Hc Hb.
  apply elem_of_list_In in Hc. specialize (H2 c Hc). rewrite (space_blank c Hb) in H2. discriminate.
Qed.
Lemma digit_int d c : String.get d "0123456789" = Some c -> int_text (String c "") (Z.of_nat d).
Proof. intros H. apply it_plain, dec_one, H. Qed.
Lemma minus_int d c : String.get d "0123456789" = Some c -> int_text (String "-" (String c "")) (- Z.of_nat d).
Proof. intros H. apply it_minus, dec_one, H. Qed.
Lemma blank1 c : c ∈ blanks -> blank_text (String c "").
Proof. intros H x Hx. cbn in Hx. apply elem_of_list_singleton in Hx as ->. exact H. Qed.
Lemma end_blank c s : c ∈ blanks -> word_end (String c s). Proof. intros H. right. eauto. Qed.
Lemma in_blanks c : is_space c = true -> c ∈ blanks. Proof. apply C07_blanks. Qed.

Ltac ex_word b w := refine (ct_item _ _ b w (Word w) _ _ _ (is_word _ _ _ _) _ _);
  [first [apply blank_empty | apply blank1, in_blanks; reflexivity]|apply no_blank_dec; reflexivity|cbn; lia|apply end_blank, in_blanks; reflexivity|].
Ltac ex_int b w n t := refine (ct_item _ _ b w (Int n) _ _ _ (is_integer _ _ _ t _) _ _);
  [apply blank1, in_blanks; reflexivity|unfold is_int; lia|apply end_blank, in_blanks; reflexivity|].
Ltac ex_real b w n t := refine (ct_item _ _ b w (Real (q n)) _ _ _ (is_real _ _ _ (ex_intro _ n (conj t eq_refl))) _ _);
  [apply blank1, in_blanks; reflexivity|apply end_blank, in_blanks; reflexivity|].
Definition nl : string := String "010" "".

Example C110_file_case : control_text whole_text exTail exItems exFile.
Proof.
  unfold exItems, layout.
  ex_word ""%string "Type-of-grid('chebyshev'-or-'uniform')"%string. ex_word nl "uniform"%string. ex_word nl "Number-of-points-in-x-y-and-z"%string.
  ex_int nl "3"%string 3%Z (digit_int 3 _ eq_refl). ex_int " "%string "4"%string 4%Z (digit_int 4 _ eq_refl). ex_int " "%string "3"%string 3%Z (digit_int 3 _ eq_refl).
  ex_word nl "Coords-of-first-point-in-x-y-and-z"%string.
  ex_real nl "-1"%string (-1)%Z (minus_int 1 _ eq_refl). ex_real " "%string "-2"%string (-2)%Z (minus_int 2 _ eq_refl). ex_real " "%string "-3"%string (-3)%Z (minus_int 3 _ eq_refl).
  ex_word nl "Coords-of-last-point-in-x-y-and-z"%string.
  ex_real nl "1"%string 1%Z (digit_int 1 _ eq_refl). ex_real " "%string "1"%string 1%Z (digit_int 1 _ eq_refl). ex_real " "%string "3"%string 3%Z (digit_int 3 _ eq_refl).
  apply ct_end.
Qed.
Notation exSetup := (setup_mesh (O := Qc_ops) scan_whole q (fun x => x) (q 3) (fun a b c => if (0 <? a) && (0 <? b) && (0 <? c) then 0 else 63)%Z).
(** a good file; one cut after the type of grid; a word instead of a number; a label of fifty characters; too few points *)
Example C110_case :
  exSetup true (Some exFile) = Ok (Mesh [q (-1); q 0; q 1] [q (-2); q (-1); q 0; q 1] [q (-3); q 0; q 3], 2%Z) /\
  readInputFile scan_whole false (Some "Type-of-grid uniform"%string) = Ok (MeshSpec [None; None; None] [None; None; None] [None; None; None] (Some "uniform"%string)) /\
  exSetup false (Some "Type-of-grid uniform"%string) = UB /\
  exSetup false (Some "Type-of-grid uniform Points three"%string) = Throw "Input not given: Error while reading file + 0" /\
  exSetup false (Some "Coordinates-of-the-first-point-in-the-x-y-and-z-di uniform"%string) = UB /\
  exSetup false (Some "Type uniform Points 2 4 3 First -1 -2 -3 Last 1 1 3"%string) = UB.
Proof. repeat split; vm_compute; reflexivity. Qed.

Print Assumptions C110_reads.
Print Assumptions C110_bad_number.
Print Assumptions C110_truncated_refuted.
Print Assumptions C110_long_word_refuted.
Print Assumptions C110_large_number_refuted.
Print Assumptions C110_missing_refuted.
Print Assumptions C110_petsc_error_refuted.
