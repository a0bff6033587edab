(** * PropConvert: property C96 (the conversion program) *)
From Coq Require Import ZArith QArith.Qcanon.
From Verif Require Import Base Alg SRMatrix Nd Coo PetscIo PropPetscIo PropPetscVec Convert Inst.
Open Scope nat_scope.

(** ** Specification *)
(** the file [name] holds the numbers [xs], [n] of them *)
Definition vector_on {F} (d : disk F) (n : nat) (name : string) (xs : list F) : Prop :=
  exists c f a b more, d name = Some (Text c f) /\ dense_file a b ((Some <$> xs) ++ more) f /\ length xs = n /\ a * b = n.
(** the file [name] holds the [n] by [n] matrix with the entries [body] *)
Definition matrix_on {F} (d : disk F) (n : nat) (name : string) (body : list (nat * nat * F)) : Prop :=
  exists c f, d name = Some (Text c f) /\ matrix_file n n body c.
(** the block sizes which the reader of the matrix knows; with others it uses 1 *)
Definition known_bs (bs : nat) : Prop := bs = 3 \/ bs = 4 \/ bs = 7.
Definition used_bs (bs : nat) : nat := if decide (bs = 3 \/ bs = 4 \/ bs = 7) then bs else 1.
Definition pmat_name (name : string) : string := (name ++ ".pmat")%string.

Lemma str_app_length s t : String.length (s ++ t) = String.length s + String.length t.
Proof. induction s as [|c s IH]; simpl; [reflexivity|]. f_equal. exact IH. Qed.
Lemma str_app_inv_r s s' t : (s ++ t)%string = (s' ++ t)%string -> s = s'.
Proof.
  revert s'. induction s as [|c s IH]; intros [|c' s'] H; simpl in H; [reflexivity| | |].
  - apply (f_equal String.length) in H. simpl in H. rewrite str_app_length in H. lia.
  - apply (f_equal String.length) in H. simpl in H. rewrite str_app_length in H. lia.
  - injection H as -> H. f_equal. apply IH, H.
Qed.
Lemma substring_all n s : String.length s <= n -> substring 0 n s = s.
Proof. revert n. induction s as [|c s IH]; intros [|n] H; simpl in *; try reflexivity; try lia. f_equal. apply IH. lia. Qed.
Lemma substring_length n s : String.length (substring 0 n s) = Nat.min n (String.length s).
Proof. revert n. induction s as [|c s IH]; intros [|n]; simpl; try reflexivity. f_equal. apply IH. Qed.

Lemma outname_ok s : String.length s <= 494 -> outname s = Ok (pmat_name s).
Proof.
  intros H. unfold outname, strcpy, strcat, PETSCOPTION_STR_LEN. rewrite (proj2 (Nat.ltb_lt _ 500)) by lia. cbn [bind].
  rewrite (proj2 (Nat.ltb_lt _ 500)); [reflexivity|]. cbn [String.length]. lia.
Qed.
Lemma outname_long s : 494 < String.length s -> outname s = UB.
Proof.
  intros H. unfold outname, strcpy, strcat, PETSCOPTION_STR_LEN. destruct (Nat.ltb_spec (String.length s) 500); [|reflexivity]. cbn [bind].
  rewrite (proj2 (Nat.ltb_ge _ 500)); [reflexivity|]. cbn [String.length]. lia.
Qed.
Lemma outname_inv s o : outname s = Ok o -> String.length s <= 494 /\ o = pmat_name s.
Proof.
  intros H. destruct (decide (String.length s <= 494)) as [L|L].
  - rewrite outname_ok in H by exact L. injection H as <-. auto.
  - rewrite outname_long in H by lia. discriminate.
Qed.
Lemma outname_cases s : outname s = UB \/ exists o, outname s = Ok o.
Proof.
  destruct (decide (String.length s <= 494)); [right; eexists; apply outname_ok; lia|left; apply outname_long; lia].
Qed.
Lemma names_cases m b x : names m b x = UB \/ exists r, names m b x = Ok r.
Proof.
  unfold names. destruct (outname_cases m) as [-> | [om ->]]; [auto|]. cbn [bind]. destruct (outname_cases b) as [-> | [ob ->]]; [auto|]. cbn [bind].
  destruct x as [x|]; [|eauto]. destruct (outname_cases x) as [-> | [ox ->]]; [auto|]. cbn [bind]. eauto.
Qed.
Lemma names_inv m b x om ob ox : names m b x = Ok (om, ob, ox) ->
  String.length m <= 494 /\ String.length b <= 494 /\ (forall s, x = Some s -> String.length s <= 494) /\
  om = pmat_name m /\ ob = pmat_name b /\ ox = pmat_name <$> x.
Proof.
  unfold names. destruct (outname_cases m) as [-> | [om' E1]]; [discriminate|]. rewrite E1. cbn [bind].
  destruct (outname_cases b) as [-> | [ob' E2]]; [discriminate|]. rewrite E2. cbn [bind].
  apply outname_inv in E1 as [L1 ->]. apply outname_inv in E2 as [L2 ->]. destruct x as [x|].
  - destruct (outname_cases x) as [-> | [ox' E3]]; [discriminate|]. rewrite E3. cbn [bind]. apply outname_inv in E3 as [L3 ->].
    intros [= <- <- <-]. repeat split; auto. intros s [= <-]. exact L3.
  - intros [= <- <- <-]. repeat split; auto. intros s [=].
Qed.

Section Facts.
  Context {F : Type} {O : SOps F}.
  Notation disk := (disk F).
  Lemma store_same (d : disk) n c : store d n c n = Some c.
  Proof. unfold store. rewrite String.eqb_refl. reflexivity. Qed.
  Lemma store_ne (d : disk) n c n' : n' <> n -> store d n c n' = d n'.
  Proof. unfold store. intros H. rewrite (proj2 (String.eqb_neq n' n) H). reflexivity. Qed.

  (** what the readers make of good files *)
  Lemma read_good dbg bs gp gi gv gd (d : disk) n m b exact body xs us :
    matrix_on d n m body -> (known_bs bs -> n mod bs = 0) -> vector_on d n b xs ->
    (forall x, exact = Some x -> vector_on d n x us) ->
    nok (read_all dbg 1 bs gp gi gv gd d m b exact) (fun '(A, v, u) =>
      is_file_matrix n n (used_bs bs) body A /\ v = xs /\ u = (if exact then Some us else None)).
  Proof.
    intros (c & f & Em & Hm) Hdiv (cb & fb & a1 & a2 & more & Eb & Hb & Lb & Hn) Hx.
    unfold read_all, open_coo. rewrite Em. eapply nok_bind with (P := fun mf => mf = c); [apply nok_lift, ok_ret; reflexivity|]. intros mf ->.
    eapply nok_bind with (P := fun '(ms, h) => exists A, ms !! h = Some A /\ is_file_matrix n n (used_bs bs) body A).
    { unfold used_bs. destruct (decide _) as [Hk|Hk].
      - eapply nok_mono; [apply (C65_reader_blocks F O dbg bs n body c gp gi gv gd Hm Hk (Hdiv Hk))|]. intros [ms h] (_ & H). exact H.
      - eapply nok_mono; [apply (C65_reader_fallback F O dbg bs n body c gp gi gv gd Hm); intros ->; apply Hk; auto|]. intros [ms h] (_ & H). exact H. }
    intros [ms h] (A & EA & HA). apply nok_lift. rewrite (proj2 (get_Some _ _ _) EA). cbn [bind].
    assert (pm_m A = n) as -> by apply HA. unfold open_dense at 1. rewrite Eb. cbn [bind].
    rewrite (C66_vec F O dbg a1 a2 xs more fb (Some n) Hb) by (lia || (right; f_equal; lia)). cbn [bind].
    destruct exact as [x|].
    - destruct (Hx x eq_refl) as (cx & fx & a3 & a4 & morex & Ex & Hxf & Lx & Hnx). unfold open_dense. rewrite Ex. cbn [bind].
      rewrite (C66_vec F O dbg a3 a4 us morex fx (Some n) Hxf) by (lia || (right; f_equal; lia)). cbn [bind]. apply ok_ret. auto.
    - apply ok_ret. auto.
  Qed.
  Lemma nok_ex {A} (m : nd A) Q : nok m Q -> exists a, m (Ok a) /\ Q a.
  Proof. intros [[o Ho] H]. specialize (H o Ho). destruct o as [a| | |]; try contradiction. eauto. Qed.
  Lemma nok_all {A} (m : nd A) Q r : nok m Q -> m r -> exists a, r = Ok a /\ Q a.
  Proof. intros [_ H] Hr. specialize (H r Hr). destruct r as [a| | |]; try contradiction. eauto. Qed.
  (** where [write_all] writes *)
  Lemma write_frame writable om ob A b x (d d' : disk) r name : write_all writable om ob A b x d = (d', r) ->
    name <> om -> name <> ob -> (forall ox u, x = Some (ox, u) -> name <> ox) -> d' name = d name.
  Proof.
    unfold write_all, BinaryOpen. intros H Hm Hb Hx.
    destruct (writable om); [|injection H as <- _; reflexivity]. cbn [negb] in H.
    destruct (writable ob); [|injection H as <- _; cbn; apply store_ne; auto]. cbn [negb] in H.
    destruct x as [[ox u]|].
    - specialize (Hx ox u eq_refl). destruct (writable ox); cbn [negb] in H; injection H as <- _; unfold View; rewrite ?store_ne by auto; reflexivity.
    - cbn [negb] in H. injection H as <- _. unfold View. rewrite ?store_ne by auto. reflexivity.
  Qed.
  Lemma write_result writable om ob A b x (d d' : disk) r : write_all writable om ob A b x d = (d', r) ->
    r = Ok 0%Z \/ r = petsc_error.
  Proof.
    unfold write_all, BinaryOpen. intros H. destruct (writable om); [|injection H as <- <-; auto]. cbn [negb] in H.
    destruct (writable ob); [|injection H as <- <-; auto]. cbn [negb] in H. destruct x as [[ox u]|]; [destruct (writable ox)|]; cbn [negb] in H; injection H as <- <-; auto.
  Qed.
End Facts.

(** C96. A matrix file and a vector file, and perhaps a file with the exact solution (which may be the same as the other one), all of matching sizes, with names of
    at most 494 characters, and places to write to: in every run the program returns 0; each file named like one of the inputs with ".pmat" behind it then holds exactly
    the matrix or vector of that input; and no other file has changed. *)
Theorem C96_converts : forall (F : Type) (O : SOps F) writable dbg bs gp gi gv gd prog m b args exact (d : disk F) n body xs us,
  matrix_on d n m body -> (known_bs bs -> n mod bs = 0) -> vector_on d n b xs -> (forall x, exact = Some x -> vector_on d n x us) ->
  m <> b -> exact <> Some m ->
  (forall name, name = m \/ name = b \/ exact = Some name -> String.length name <= 494 /\ writable (pmat_name name) = true) ->
  let run := convert_main writable dbg 1 bs gp gi gv gd (prog :: m :: b :: args) exact d in
  (exists out, run out) /\ forall out, run out -> exists d', out = (d', Ok 0%Z) /\
    (exists A, d' (pmat_name m) = Some (Bin (Some (BMat A))) /\ is_file_matrix n n (used_bs bs) body A) /\
    d' (pmat_name b) = Some (Bin (Some (BVec xs))) /\
    (forall x, exact = Some x -> d' (pmat_name x) = Some (Bin (Some (BVec us)))) /\
    forall name, name <> pmat_name m -> name <> pmat_name b -> (forall x, exact = Some x -> name <> pmat_name x) -> d' name = d name.
Proof.
  intros F O writable dbg bs gp gi gv gd prog m b args exact d n body xs us Hm Hdiv Hb Hx Hmb Hmx Hnames run.
  assert (get_string exact = exact) as Eg.
  { unfold get_string. destruct exact as [x|]; [|reflexivity]. cbn. f_equal. apply substring_all. destruct (Hnames x) as [L _]; [auto|]. unfold PETSCOPTION_STR_LEN. lia. }
  pose proof (read_good dbg bs gp gi gv gd d n m b exact body xs us Hm Hdiv Hb Hx) as Hr.
  assert (names m b exact = Ok (pmat_name m, pmat_name b, pmat_name <$> exact)) as En.
  { unfold names. rewrite (outname_ok m), (outname_ok b) by (apply Hnames; auto). cbn [bind]. destruct exact as [x|]; [|reflexivity].
    rewrite (outname_ok x) by (apply Hnames; auto). reflexivity. }
  unfold run, convert_main. cbn [length Nat.ltb Nat.leb lookup list_lookup]. cbv zeta. rewrite Eg.
  split.
  { destruct (nok_ex _ _ Hr) as ([[A v] u] & Hin & _). eexists. exists (Ok (A, v, u)). split; [exact Hin|]. rewrite En. reflexivity. }
  intros out (r & Hin & Hout). destruct (nok_all _ _ r Hr Hin) as ([[A v] u] & -> & HA & -> & ->). rewrite En in Hout.
  assert (pmat_name b <> pmat_name m) as Nbm by (intros E; apply str_app_inv_r in E; congruence).
  pose proof Hout as Hframe. destruct out as [d' r]. exists d'.
  unfold write_all, BinaryOpen in Hout. rewrite (proj2 (Hnames m ltac:(auto))), (proj2 (Hnames b ltac:(auto))) in Hout. cbn [negb] in Hout.
  assert (forall name, name <> pmat_name m -> name <> pmat_name b -> (forall x, exact = Some x -> name <> pmat_name x) -> d' name = d name) as Hfr.
  { intros name N1 N2 N3. eapply write_frame; [symmetry; exact Hframe|exact N1|exact N2|]. intros ox u' E. destruct exact as [x|]; [|discriminate E].
    cbn in E. injection E as <- _. apply N3. reflexivity. }
  destruct exact as [x|]; cbn [fmap option_fmap option_map] in Hout.
  - rewrite (proj2 (Hnames x ltac:(auto))) in Hout. cbn [negb] in Hout. injection Hout as -> ->. split; [reflexivity|].
    assert (pmat_name x <> pmat_name m) as Nxm by (intros E; apply str_app_inv_r in E; congruence).
    assert (length us = length xs) as Lux. { destruct (Hx x eq_refl) as (? & ? & ? & ? & ? & _ & _ & L & _), Hb as (? & ? & ? & ? & ? & _ & _ & L' & _). congruence. }
    split; [|split; [|split; [|exact Hfr]]].
    + exists A. split; [|exact HA]. unfold View. rewrite (store_ne _ (pmat_name x)), (store_ne _ (pmat_name b)), store_same by auto.
      rewrite !store_ne by auto. rewrite store_same. reflexivity.
    + destruct (string_dec x b) as [->|Nxb].
      * assert (us = xs) as ->.
        { destruct (Hx b eq_refl) as (c1 & f1 & a1 & a2 & more & E1 & (_ & _ & D1) & L1 & _), Hb as (c2 & f2 & a3 & a4 & more' & E2 & (_ & _ & D2) & L2 & _).
          rewrite E1 in E2. injection E2 as <- <-. rewrite D1 in D2. apply (f_equal (take n)) in D2. rewrite !take_app_alt in D2 by (rewrite fmap_length; congruence).
          revert D2. apply (inj (fmap Some)). }
        unfold View. rewrite !store_same. rewrite (store_ne _ (pmat_name m)) by auto. rewrite !store_same. rewrite Nat.leb_refl. reflexivity.
      * assert (pmat_name x <> pmat_name b) by (intros E; apply str_app_inv_r in E; congruence).
        unfold View. rewrite (store_ne _ (pmat_name x)), store_same by auto. rewrite (store_ne _ (pmat_name m)), (store_ne _ (pmat_name x)), store_same by auto. reflexivity.
    + intros x' [= <-]. unfold View at 1. rewrite store_same. destruct (string_dec x b) as [->|Nxb].
      * unfold View. rewrite !store_same. rewrite (store_ne _ (pmat_name m)) by auto. rewrite !store_same. rewrite (proj2 (Nat.leb_le _ _)) by lia. reflexivity.
      * assert (pmat_name x <> pmat_name b) by (intros E; apply str_app_inv_r in E; congruence).
        unfold View. rewrite (store_ne _ (pmat_name b)), (store_ne _ (pmat_name m)), store_same by auto. reflexivity.
  - cbn [negb] in Hout. injection Hout as -> ->. split; [reflexivity|]. split; [|split; [|split; [|exact Hfr]]].
    + exists A. split; [|exact HA]. unfold View. rewrite (store_ne _ (pmat_name b)), store_same by auto. rewrite !store_ne by auto. rewrite store_same. reflexivity.
    + unfold View. rewrite store_same, (store_ne _ (pmat_name m)), store_same by auto. reflexivity.
    + intros x [=].
Qed.

(** Whatever the inputs, in every run without undefined behaviour, failed or not: a file which has changed is called like one of the inputs with ".pmat" behind it,
    and then all inputs were there and have been read. *)
Theorem C96_frame : forall (F : Type) (O : SOps F) writable dbg size bs gp gi gv gd prog m b args exact (d d' : disk F) r name,
  convert_main writable dbg size bs gp gi gv gd (prog :: m :: b :: args) exact d (d', r) -> r <> UB -> d' name <> d name ->
  (name = pmat_name m \/ name = pmat_name b \/ exists x, exact = Some x /\ name = pmat_name x) /\
  (exists c f ms h A, d m = Some (Text c f) /\ readMatFromCOOFile_viaSR dbg size bs gp gi gv gd c (Ok (ms, h)) /\ ms !! h = Some A /\
    forall v, v = b \/ exact = Some v -> exists c' f' xs, d v = Some (Text c' f') /\ readVecFromFile dbg (Some (pm_m A)) f' = Ok xs).
Proof.
  intros F O writable dbg size bs gp gi gv gd prog m b args exact d d' r name H Hub Hd.
  unfold convert_main in H. cbn [length Nat.ltb Nat.leb lookup list_lookup] in H. cbv zeta in H. destruct H as (res & Hin & Hout).
  destruct res as [[[A v] u]| | |]; try (injection Hout as -> ->; congruence).
  destruct (names_cases m b (get_string exact)) as [En|[[[om ob] ox] En]]; rewrite En in Hout; [injection Hout as -> ->; congruence|].
  apply names_inv in En as (L1 & L2 & L3 & -> & -> & ->).
  assert (get_string exact = exact) as Eg.
  { unfold get_string in *. destruct exact as [x|]; [|reflexivity]. cbn in *. f_equal. apply substring_all. specialize (L3 _ eq_refl). rewrite substring_length in L3.
    unfold PETSCOPTION_STR_LEN in *. lia. }
  rewrite Eg in *. split.
  - destruct (string_dec name (pmat_name m)) as [|N1]; [auto|]. destruct (string_dec name (pmat_name b)) as [|N2]; [auto|]. right. right.
    destruct exact as [x|].
    + destruct (string_dec name (pmat_name x)) as [->|N3]; [eauto|]. destruct Hd. eapply write_frame; [symmetry; exact Hout|exact N1|exact N2|].
      intros ox u' E. cbn in E. destruct u as [u|]; [|discriminate E]. injection E as <- _. exact N3.
    + destruct Hd. eapply write_frame; [symmetry; exact Hout|exact N1|exact N2|]. intros ox u' E. discriminate E.
  - unfold read_all in Hin. destruct Hin as (o1 & H1 & Hin). unfold nlift, open_coo in H1. destruct (d m) as [[c f| |]|] eqn:Em; subst o1; try discriminate Hin.
    destruct Hin as (o2 & H2 & Hin). destruct o2 as [[ms h]| | |]; try discriminate Hin. unfold nlift in Hin.
    destruct (get ms h) as [A'| | |] eqn:EA; cbn [bind] in Hin; try discriminate Hin.
    destruct (open_dense d b) as [bf| | |] eqn:Eb; cbn [bind] in Hin; try discriminate Hin.
    destruct (readVecFromFile dbg (Some (pm_m A')) bf) as [bv| | |] eqn:Ev; cbn [bind] in Hin; try discriminate Hin.
    exists c, f, ms, h, A'. split; [reflexivity|]. split; [exact H2|]. split; [apply get_Some, EA|].
    intros w [-> |Hw].
    + unfold open_dense in Eb. destruct (d b) as [[cb fb| |]|]; try discriminate Eb. injection Eb as ->. eauto.
    + subst exact. destruct (open_dense d w) as [xf| | |] eqn:Ex; cbn [bind] in Hin; try discriminate Hin.
      destruct (readVecFromFile dbg (Some (pm_m A')) xf) as [xv| | |] eqn:Exv; cbn [bind] in Hin; try discriminate Hin.
      unfold open_dense in Ex. destruct (d w) as [[cx fx| |]|]; try discriminate Ex. injection Ex as ->. eauto.
Qed.
(** An input which is not there: no run returns a code, and nothing is written; without the matrix the program aborts. Of the name given with -exact_soln the first
    499 characters are used. *)
Theorem C96_missing : forall (F : Type) (O : SOps F) writable dbg size bs gp gi gv gd prog m b args exact (d d' : disk F) r,
  convert_main writable dbg size bs gp gi gv gd (prog :: m :: b :: args) exact d (d', r) ->
  d m = None \/ d b = None \/ (exists x, exact = Some x /\ d (substring 0 499 x) = None) ->
  d' = d /\ (forall code, r <> Ok code) /\ (d m = None -> r = Throw "abort").
Proof.
  intros F O writable dbg size bs gp gi gv gd prog m b args exact d d' r H Hmiss.
  unfold convert_main in H. cbn [length Nat.ltb Nat.leb lookup list_lookup] in H. cbv zeta in H. destruct H as (res & Hin & Hout).
  assert (d m = None -> res = Throw "abort") as Habort.
  { intros E. destruct Hin as (o1 & H1 & Hin). unfold nlift, open_coo in H1. rewrite E in H1. subst o1. exact Hin. }
  assert (forall a, res <> Ok a) as Hno.
  { intros a ->. clear Habort. unfold read_all in Hin. destruct Hin as (o1 & H1 & Hin). unfold nlift, open_coo in H1.
    destruct Hmiss as [E|Hmiss]; [rewrite E in H1; subst o1; discriminate Hin|]. destruct o1 as [mf| | |]; try discriminate Hin.
    destruct Hin as (o2 & H2 & Hin). destruct o2 as [[ms h]| | |]; try discriminate Hin. unfold nlift in Hin.
    destruct (get ms h) as [A'| | |] eqn:EA; cbn [bind] in Hin; try discriminate Hin.
    destruct Hmiss as [E|(x & -> & E)]; [unfold open_dense in Hin; rewrite E in Hin; discriminate Hin|].
    destruct (open_dense d b) as [bf| | |] eqn:Eb; cbn [bind] in Hin; try discriminate Hin.
    destruct (readVecFromFile dbg (Some (pm_m A')) bf) as [bv| | |] eqn:Ev; cbn [bind] in Hin; try discriminate Hin.
    change (get_string (Some x)) with (Some (substring 0 499 x)) in Hin. cbv iota in Hin.
    unfold open_dense in Hin. rewrite E in Hin. discriminate Hin. }
  destruct res as [a| | |]; [destruct (Hno a eq_refl)| | |]; injection Hout as -> ->; (split; [reflexivity|]); (split; [discriminate|]); intros E; specialize (Habort E); try discriminate Habort; injection Habort as ->; reflexivity.
Qed.
(** Fewer than two file names: success is reported, nothing is written. *)
Theorem C96_usage : forall (F : Type) (O : SOps F) writable dbg size bs gp gi gv gd argv exact (d : disk F) out,
  length argv < 3 -> convert_main writable dbg size bs gp gi gv gd argv exact d out <-> out = (d, Ok 0%Z).
Proof. intros F O writable dbg size bs gp gi gv gd argv exact d out L. unfold convert_main. rewrite (proj2 (Nat.ltb_lt _ _) L). reflexivity. Qed.

(** ** Failures *)
(** Good files, but a name longer than 494 characters: undefined behaviour, the name of the output does not fit into its array. *)
Theorem C96_long_name_refuted : forall (F : Type) (O : SOps F) writable dbg bs gp gi gv gd prog m b args (d : disk F) n body xs,
  matrix_on d n m body -> (known_bs bs -> n mod bs = 0) -> vector_on d n b xs -> 494 < String.length m \/ 494 < String.length b ->
  forall out, convert_main writable dbg 1 bs gp gi gv gd (prog :: m :: b :: args) None d out -> out.2 = UB.
Proof.
  intros F O writable dbg bs gp gi gv gd prog m b args d n body xs Hm Hdiv Hb Hlong out H.
  pose proof (read_good dbg bs gp gi gv gd d n m b None body xs [] Hm Hdiv Hb ltac:(intros ? [=])) as Hr.
  unfold convert_main in H. cbn [length Nat.ltb Nat.leb lookup list_lookup] in H. cbv zeta in H. destruct H as (r & Hin & Hout).
  destruct (nok_all _ _ r Hr Hin) as ([[A v] u] & -> & _).
  assert (names m b (get_string None) = UB) as En.
  { unfold names. destruct Hlong as [L|L]; [rewrite (outname_long m L); reflexivity|]. destruct (outname_cases m) as [-> | [om ->]]; [reflexivity|]. cbn [bind].
    rewrite (outname_long b L). reflexivity. }
  rewrite En in Hout. subst out. reflexivity.
Qed.
(** A vector file whose name is that of the matrix file with ".pmat" behind it is lost: the matrix is written there. *)
Theorem C96_input_lost_refuted : forall (F : Type) (O : SOps F) writable dbg bs gp gi gv gd prog m b args (d : disk F) n body xs,
  matrix_on d n m body -> (known_bs bs -> n mod bs = 0) -> vector_on d n b xs -> b = pmat_name m ->
  (forall name, name = m \/ name = b -> String.length name <= 494 /\ writable (pmat_name name) = true) ->
  forall out, convert_main writable dbg 1 bs gp gi gv gd (prog :: m :: b :: args) None d out ->
    out.2 = Ok 0%Z /\ exists A, out.1 b = Some (Bin (Some (BMat A))).
Proof.
  intros F O writable dbg bs gp gi gv gd prog m b args d n body xs Hm Hdiv Hb Eb Hnames out H.
  assert (m <> b) as Hmb. { rewrite Eb. intros E. apply (f_equal String.length) in E. unfold pmat_name in E. rewrite str_app_length in E. simpl in E. lia. }
  destruct (C96_converts F O writable dbg bs gp gi gv gd prog m b args None d n body xs [] Hm Hdiv Hb ltac:(intros ? [=]) Hmb ltac:(discriminate)) as [_ Hc].
  { intros name [-> | [-> | [=]]]; apply Hnames; auto. }
  destruct (Hc out H) as (d' & -> & (A & HA & _) & _). split; [reflexivity|]. exists A. cbn. rewrite Eb. exact HA.
Qed.
(** The file for the vector cannot be opened: an error code is returned, and what the file for the matrix held before is gone. *)
Theorem C96_unwritable_refuted : forall (F : Type) (O : SOps F) writable dbg bs gp gi gv gd prog m b args (d : disk F) n body xs,
  matrix_on d n m body -> (known_bs bs -> n mod bs = 0) -> vector_on d n b xs -> String.length m <= 494 -> String.length b <= 494 ->
  writable (pmat_name m) = true -> writable (pmat_name b) = false ->
  forall out, convert_main writable dbg 1 bs gp gi gv gd (prog :: m :: b :: args) None d out ->
    out.2 = petsc_error /\ out.1 (pmat_name m) = Some (Bin None).
Proof.
  intros F O writable dbg bs gp gi gv gd prog m b args d n body xs Hm Hdiv Hb Lm Lb Wm Wb out H.
  pose proof (read_good dbg bs gp gi gv gd d n m b None body xs [] Hm Hdiv Hb ltac:(intros ? [=])) as Hr.
  unfold convert_main in H. cbn [length Nat.ltb Nat.leb lookup list_lookup] in H. cbv zeta in H. destruct H as (r & Hin & Hout).
  destruct (nok_all _ _ r Hr Hin) as ([[A v] u] & -> & _). unfold names in Hout. rewrite !outname_ok in Hout by assumption. cbn [bind get_string fmap option_fmap option_map] in Hout.
  unfold write_all, BinaryOpen in Hout. rewrite Wm, Wb in Hout. cbn [negb] in Hout. subst out. split; [reflexivity|]. cbn. apply store_same.
Qed.

(** ** A case *)
Definition C96_disk : disk Qc := fun name =>
  if String.eqb name "A.mtx" then
    Some (Text (MMFile "%%MatrixMarket matrix coordinate real general" [2; 2; 3] [(1, 1, q 4); (2, 1, q (-1)); (2, 2, q 3)]) (DenseFile "" [] []))
  else if String.eqb name "b.mtx" then
    Some (Text (MMFile "" [] []) (DenseFile "%%MatrixMarket matrix array real general" [2; 1] [Some (q 5); Some (q 7)]))
  else if String.eqb name "A.mtx.pmat" then Some (Bin (Some (BVec [q 1])))
  else None.
Example C96_case : matrix_on C96_disk 2 "A.mtx" [(1, 1, q 4); (2, 1, q (-1)); (2, 2, q 3)] /\ vector_on C96_disk 2 "b.mtx" [q 5; q 7] /\
  (forall name, name = "A.mtx"%string \/ name = "b.mtx"%string \/ Some "b.mtx"%string = Some name -> String.length name <= 494).
Proof.
  split; [|split].
  - eexists _, _. split; [reflexivity|]. split.
    + eexists. split; [vm_compute; reflexivity|]. repeat split; discriminate.
    + exists []. reflexivity.
    + reflexivity.
    + lia.
    + intros i Hi. assert (i = 1 \/ i = 2) as [-> | ->] by lia; [exists (1, 1, q 4)|exists (2, 2, q 3)]; (split; [|reflexivity]); repeat (apply elem_of_list_here || apply elem_of_list_further).
    + intros t Ht. apply elem_of_cons in Ht as [-> |Ht]; [simpl; lia|]. apply elem_of_cons in Ht as [-> |Ht]; [simpl; lia|]. apply elem_of_cons in Ht as [-> |Ht]; [simpl; lia|].
      apply elem_of_nil in Ht. contradiction.
  - eexists _, _, 2, 1, []. split; [reflexivity|]. split; [|split; reflexivity]. split; [|split].
    + eexists. split; [vm_compute; reflexivity|]. split; reflexivity.
    + exists []. reflexivity.
    + reflexivity.
  - intros name [-> | [-> | [= <-]]]; cbn; lia.
Qed.

Print Assumptions C96_converts.
Print Assumptions C96_frame.
Print Assumptions C96_missing.
Print Assumptions C96_usage.
Print Assumptions C96_long_name_refuted.
Print Assumptions C96_input_lost_refuted.
Print Assumptions C96_unwritable_refuted.
