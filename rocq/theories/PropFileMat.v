(** * C83: a matrix object made from a file is the matrix written in the file, and stays what later calls make of it *)
From Coq Require Import ZArith Ascii String QArith.Qcanon.
From Verif Require Import Base Alg SRMatrix Nd TriSpec TriFacts Matvec BlockMat Coo CooSpec CooFacts CooBsr MMText FileMat MatObj MatObjSpec Inst
  Reorder PropMatvec PropBlockMat PropConstruct PropCoo PropCooRead PropMMText PropMatObj.
Open Scope nat_scope.

(** ** The matrix written in a file: triples of row, column (both counted from 1) and value *)
Section Spec.
  Context {F : Type} {O : SOps F}.
  Definition written (body : list (Z * Z * F)) (I J : nat) : F :=
    match list_find (fun t => t.1 = (Z.of_nat I + 1, Z.of_nat J + 1)%Z) body with Some (_, t) => t.2 | None => s0 end.
  (** ... as a matrix of blocks: a block is in the pattern if one of its entries is written *)
  Definition file_matrix (bs N : nat) (body : list (Z * Z * F)) : amat F :=
    let st i j := existsb (fun t => (Z.to_nat (t.1.1 - 1) / bs =? i) && (Z.to_nat (t.1.2 - 1) / bs =? j)) body in
    AMat N st (fun I J => Some (written body I J)) (forallb (fun i => st i i) (seq 0 N)).
  (** The characters of a file: header, comments, the size line, the triples; [n] rows and columns *)
  Definition square_file (real_text : string -> F -> Prop) (n : nat) (body : list (Z * Z * F)) (text : string) : Prop :=
    exists header cs size extra rest, text = file_text header cs size rest /\ coordinate_header header /\ Forall comment cs /\
      sizes_line size (Z.of_nat n :: Z.of_nat n :: Z.of_nat (length body) :: extra) /\ (forall n, n ∈ extra -> (0 <= n)%Z) /\
      body_text real_text body rest.
  (** every row has an entry, indices are in range, and no place is written twice *)
  Definition full_body (n : nat) (body : list (Z * Z * F)) : Prop :=
    (forall ri ci v, (ri, ci, v) ∈ body -> (1 <= ri <= Z.of_nat n /\ 1 <= ci <= Z.of_nat n)%Z) /\
    (forall i, 1 <= i <= n -> exists ci v, (Z.of_nat i, ci, v) ∈ body) /\
    (forall k1 k2 t1 t2, body !! k1 = Some t1 -> body !! k2 = Some t2 -> t1.1 = t2.1 -> k1 = k2).
End Spec.

Section C83.
  Context {F : Type} {O : SOps F}.
  Implicit Type body : list (Z * Z * F).
  Lemma written_at n body I J v : full_body n body -> (Z.of_nat I + 1, Z.of_nat J + 1, v)%Z ∈ body -> written body I J = v.
  Proof.
    intros (_ & _ & Hd) Hin. unfold written. destruct (list_find _ body) as [[k t]|] eqn:E.
    - apply list_find_Some in E as (Hk & Ht & _). apply elem_of_list_lookup in Hin as [k' Hk'].
      assert (k = k') as -> by (apply (Hd k k' _ _ Hk Hk'); exact Ht). rewrite Hk in Hk'. injection Hk' as ->. reflexivity.
    - apply list_find_None in E. rewrite Forall_forall in E. destruct (E _ Hin). reflexivity.
  Qed.
  Lemma written_not body I J : (forall v, (Z.of_nat I + 1, Z.of_nat J + 1, v)%Z ∉ body) -> written body I J = s0.
  Proof.
    intros Hno. unfold written. destruct (list_find _ body) as [[k t]|] eqn:E; [|reflexivity].
    apply list_find_Some in E as (Hk & Ht & _). destruct t as [[ri ci] v]. simpl in Ht. injection Ht as -> ->. destruct (Hno v). apply elem_of_list_lookup_2 in Hk. exact Hk.
  Qed.
  Lemma listed n body es : full_body n body -> es ≡ₚ (fun t => Entry (Z.to_nat (t.1.1 - 1)) (Z.to_nat (t.1.2 - 1)) t.2) <$> body ->
    forall i j v, Entry i j v ∈ es <-> (Z.of_nat i + 1, Z.of_nat j + 1, v)%Z ∈ body.
  Proof.
    intros (Hr & _ & _) Hp i j v. rewrite Hp, elem_of_list_fmap. split.
    - intros ([[ri ci] w] & E & Ht). pose proof (Hr _ _ _ Ht). simpl in E. injection E as -> -> ->.
      replace (Z.of_nat (Z.to_nat (ri - 1)) + 1)%Z with ri by lia. replace (Z.of_nat (Z.to_nat (ci - 1)) + 1)%Z with ci by lia. exact Ht.
    - intros Ht. eexists. split; [|exact Ht]. simpl. f_equal; lia.
  Qed.
  Lemma coo_entry_written n body es I J x : full_body n body -> es ≡ₚ (fun t => Entry (Z.to_nat (t.1.1 - 1)) (Z.to_nat (t.1.2 - 1)) t.2) <$> body ->
    coo_entry es I J x -> x = written body I J.
  Proof.
    intros Hf Hp [H|[-> H]]; symmetry.
    - apply (written_at n); [exact Hf|]. apply (listed n body es Hf Hp). exact H.
    - apply written_not. intros v Hv. apply (H v). apply (listed n body es Hf Hp). exact Hv.
  Qed.
  Lemma stored_listed n bs N body es i j : full_body n body -> es ≡ₚ (fun t => Entry (Z.to_nat (t.1.1 - 1)) (Z.to_nat (t.1.2 - 1)) t.2) <$> body ->
    a_stored (file_matrix bs N body) i j = true <-> exists e, e ∈ es /\ rowind e / bs = i /\ colind e / bs = j.
  Proof.
    intros Hf Hp. cbn [a_stored file_matrix]. rewrite existsb_exists. setoid_rewrite andb_true_iff. setoid_rewrite Nat.eqb_eq. split.
    - intros (t & Ht & H). exists (Entry (Z.to_nat (t.1.1 - 1)) (Z.to_nat (t.1.2 - 1)) t.2). split; [|exact H].
      rewrite Hp. apply elem_of_list_fmap. exists t. split; [reflexivity|]. apply elem_of_list_In, Ht.
    - intros (e & He & H). rewrite Hp in He. apply elem_of_list_fmap in He as (t & -> & Ht). exists t. split; [apply elem_of_list_In, Ht|exact H].
  Qed.
  Lemma all_diag bs N body : a_diag (file_matrix bs N body) = true -> forall i, i < N -> a_stored (file_matrix bs N body) i i = true.
  Proof. cbn [a_diag a_stored file_matrix]. rewrite forallb_forall. intros H i Hi. apply H. apply in_seq. lia. Qed.

  Lemma from_file_ok cl real_text scan_real N body text : 0 < width cl -> cl <> Some 1 -> 0 < N -> understands real_text scan_real ->
    square_file real_text (N * width cl) body text -> full_body (N * width cl) body ->
    nok (matrix_from_file scan_real cl (Some text)) (refines cl (file_matrix (width cl) N body)).
  Proof.
    intros Hbs Hcl HN Hu (header & cs & size & extra & rest & -> & Hh & Hcs & Hsz & Hex & Hb) Hfull. pose proof Hfull as (Hrange & Hrows & Hdup).
    unfold matrix_from_file.
    eapply nok_bind; [apply (C72_matrix F O real_text scan_real coo_new header cs size _ _ extra body rest Hu Hh Hcs Hsz Hex Hb); [nia|exact Hrange|exact Hrows]|].
    intros c (Hc & Hrn & Hcn & Hp & Hs). set (a := file_matrix (width cl) N body).
    assert (coo_nodup c) as Hnd.
    { assert (NoDup ((fun e => (rowind e, colind e)) <$> entries c)) as Hn.
      { rewrite Hp. rewrite <- list_fmap_compose. apply NoDup_alt. intros k1 k2 x K1 K2. apply list_lookup_fmap_inv in K1 as (t1 & -> & K1), K2 as (t2 & E2 & K2).
        apply (Hdup _ _ _ _ K1 K2). destruct t1 as [[r1 c1] v1], t2 as [[r2 c2] v2].
        pose proof (Hrange _ _ _ (elem_of_list_lookup_2 _ _ _ K1)). pose proof (Hrange _ _ _ (elem_of_list_lookup_2 _ _ _ K2)). simpl in *. injection E2 as E2 E3. f_equal; lia. }
      intros k1 k2 e1 e2 K1 K2 R1 R2. apply (proj1 (NoDup_alt _) Hn k1 k2 (rowind e1, colind e1)); rewrite list_lookup_fmap, ?K1, ?K2; simpl; congruence. }
    eapply nok_bind with (P := refines cl a).
    2:{ intros M Hr. split.
        - exists (Ok M). left. reflexivity.
        - intros o [-> |Hcopy]; [exact Hr|]. apply (proj2 (step_copy cl a M Hr)). exact Hcopy. }
    assert (forall gp gi gv gd, exists M d, getSRMatrixFromCOO (width cl) "rowmajor" gp gi gv gd c = Ok (M, d) /\ refines cl a M) as H.
    { intros gp gi gv gd. destruct cl as [bs|]; cbn [width] in *.
      - assert (bs <> 1) as Hb1 by congruence. rewrite (proj1 (C05_by_name F O c bs "rowmajor" gp gi gv gd Hb1)) by reflexivity.
        destruct (C05_block_rows F O c RowMajor bs N gp gi gv gd Hc Hbs Hrn Hcn) as (M & d & E & Hn & Hw & He & Hnd' & Hv & Hz & _ & Hval & Hst & Hd & Hdiag).
        { right. destruct (Hrows 1 ltac:(nia)) as (ci & v & Ht). exists (Entry 0 (Z.to_nat (ci - 1)) v). split; [|simpl; lia].
          rewrite Hp. apply elem_of_list_fmap. eexists. split; [|exact Ht]. reflexivity. }
        assert (forall i j, i < N -> j < N -> pos M i j <> None <-> a_stored a i j = true) as Hsto.
        { intros i j Hi Hj. rewrite (Hst i j Hi Hj). symmetry. apply (stored_listed _ bs N body (entries c) i j Hfull Hp). }
        exists M, d. split; [exact E|]. split.
        + constructor; try assumption; try discriminate.
          * pose proof (convertToBSR_spec c RowMajor bs N Hc Hbs Hrn Hcn gp gi gv gd) as HS.
            assert (entries c = [] \/ exists k e, entries c !! k = Some e /\ rowind e < bs) as Hfirst.
            { right. destruct (Hrows 1 ltac:(nia)) as (ci & v & Ht). assert (Entry 0 (Z.to_nat (ci - 1)) v ∈ entries c) as Hin.
              { rewrite Hp. apply elem_of_list_fmap. eexists. split; [|exact Ht]. reflexivity. }
              apply elem_of_list_lookup in Hin as [k Hk]. exists k. eexists. split; [exact Hk|simpl; lia]. }
            specialize (HS Hfirst). rewrite E in HS. cbn [ok] in HS. destruct HS as (bl & _ & _ & _ & _ & _ & _ & _ & _ & _ & Hdz & Ld & _).
            rewrite Hdz, fmap_length. lia.
          * intros Ha. apply Hdiag. intros i Hi. apply Hsto; [exact Hi|exact Hi|]. apply all_diag; assumption.
        + intros I J x HI HJ _ Hx. injection Hx as <-. apply (coo_entry_written _ body (entries c) I J _ Hfull Hp). apply Hval; assumption.
      - unfold getSRMatrixFromCOO. cbn [Nat.eqb].
        destruct (C04_csr F c gp gi gv (fun i => Z.to_nat (gd i)) Hc) as (M & E & Hn & Hlp & Hr0 & Hmono & Hlast & Hz & Hst & He & Hbc & Hvs & Hh' & Ld & Hdg & Hwf & Hsrt).
        rewrite Nat.mul_1_r in *. destruct (Hwf ltac:(congruence)) as [Hw Hv].
        assert (coo_sorted c) as Hsc.
        { intros k1 k2 e1 e2 H12 K1 K2 R. destruct (Hs k1 k2 e1 e2 H12 K1 K2) as [|[_ Hle]]; [lia|].
          destruct (decide (colind e1 = colind e2)) as [Eq|]; [|lia]. pose proof (Hnd _ _ _ _ K1 K2 R Eq). lia. }
        specialize (Hsrt Hsc). assert (nbrows M = N) as HnN by congruence. pose proof (sorted_nodup M Hsrt) as Hnd'.
        assert (forall i j, i < N -> j < N -> pos M i j <> None <-> a_stored a i j = true) as Hsto.
        { intros i j Hi Hj. unfold a. rewrite (stored_listed N 1 N body (entries c) i j Hfull Hp). split.
          - intros Hne. destruct (pos M i j) as [k|] eqn:Ek; [|congruence]. apply pos_Some in Ek as [Hk Hck]; [|lia].
            pose proof (inrow_lt M i k Hw Hk) as Hlt. assert (nnz M = length (entries c)) as Hnnz by (unfold nnz; rewrite HnN, <- Hrn; exact Hlast).
            destruct (lookup_lt_is_Some_2 (entries c) k) as [e Hek]; [lia|].
            exists (Entry i j (value e)). rewrite !Nat.div_1_r. split; [|auto]. apply Hh'. exists k. split; [exact Hk|]. rewrite Hvs, list_lookup_fmap, Hek. split; [|reflexivity].
            unfold col in Hck. rewrite <- Hck. apply list_lookup_lookup_total_lt. rewrite Hbc, fmap_length. lia.
          - intros (e & Hee & <- & <-). rewrite !Nat.div_1_r in *. destruct e as [ri ci v]. simpl in *. apply Hh' in Hee as (k & Hk & Hck & _).
            assert (col M k = ci) as <- by (unfold col; apply list_lookup_total_correct; exact Hck). rewrite (pos_of M ri k Hnd' Hk). discriminate. }
        exists M, (Z.of_nat <$> diagind M). split; [rewrite E; reflexivity|]. split.
        + constructor; try assumption.
          * rewrite Hz. symmetry. unfold nnz. rewrite HnN, <- Hrn. exact Hlast.
          * congruence.
          * intros _. exact Hsrt.
          * intros Ha. split; [congruence|]. intros i Hi. rewrite HnN in Hi. pose proof (all_diag 1 N body Ha i Hi) as Hst'.
            apply (stored_listed N 1 N body (entries c) i i Hfull Hp) in Hst' as (e & Hee & H1 & H2). rewrite !Nat.div_1_r in *. destruct e as [ri ci v]. simpl in *. subst ri ci.
            destruct (Hdg i v Hee) as [[_ H3] H4]. auto.
        + intros I J x HI HJ _ Hx. injection Hx as <-. cbn [width] in *. rewrite Nat.mul_1_r in HI, HJ. rewrite bdense_1.
          apply (coo_entry_written _ body (entries c) I J _ Hfull Hp). apply (C04_same_matrix F O c gp gi gv (fun i => Z.to_nat (gd i)) M Hc Hnd E). cbn [a_rows a file_matrix] in HI. congruence || lia. }
    split.
    - destruct (H (fun _ => 0) (fun _ => 0) (fun _ => s0) (fun _ => 0%Z)) as (M & d & E & _). eexists. exists (fun _ => 0), (fun _ => 0), (fun _ => s0), (fun _ => 0%Z). reflexivity.
    - intros o (gp & gi & gv & gd & ->). destruct (H gp gi gv gd) as (M & d & -> & Hr). exact Hr.
  Qed.

  Context {R : CRing F}.
  (** The object made from a file, and changed by any allowed calls after that, is the matrix which the file and the calls describe *)
  Theorem C83_object cl real_text scan_real N body text (h : list (mcall F)) : 0 < width cl -> cl <> Some 1 -> 0 < N -> understands real_text scan_real ->
    square_file real_text (N * width cl) body text -> full_body (N * width cl) body ->
    let a := file_matrix (width cl) N body in legal_calls cl h a ->
    nok (ndo M := matrix_from_file scan_real cl (Some text) in mcalls cl h M) (represents cl (acalls cl h a)).
  Proof.
    intros Hbs Hcl HN Hu Ht Hf a Hl. eapply nok_bind; [apply (from_file_ok cl real_text scan_real N body text); assumption|]. fold a. intros M Hr.
    eapply nok_mono; [apply (calls_ok cl h Hbs a M Hr Hl)|]. intros M' [Hs Hn]. split; [apply Hs|]. split; [apply Hs|].
    intros I J x HI HJ Hx. unfold entry_of in Hx. destruct (a_stored (acalls cl h a) (I / width cl) (J / width cl)) eqn:E; [apply (Hn I J x HI HJ E Hx)|]. injection Hx as <-.
    unfold bdense. destruct (pos M' (I / width cl) (J / width cl)) as [p|] eqn:Ep; [|reflexivity]. exfalso.
    assert (pos M' (I / width cl) (J / width cl) <> None) as Hne by congruence. apply (sh_stored _ _ _ Hs) in Hne; [congruence|apply div_lt; assumption..].
  Qed.
  Lemma apply_refined cl (b : amat F) M A x y : 0 < width cl -> refines cl b M -> is_matrix cl b A ->
    let n := a_rows b * width cl in length x = n -> length y = n -> nok (mat_apply cl M x y) (fun y' => length y' = n /\ is_prod n A x y').
  Proof.
    intros Hbs Hr HA n Hx Hy. pose proof Hr as [Hs _].
    pose proof (sh_rows _ b M Hs) as En. pose proof (refines_represents cl b M A Hbs Hr HA) as HE. unfold n in *. rewrite <- En in Hx, Hy |- *.
    assert (nok (mat_apply cl M x y) (fun y' => length y' = nbrows M * width cl /\ is_prod (nbrows M * width cl) (bdense RowMajor (width cl) M) x y')) as H.
    { pose proof (sh_pat _ b M Hs) as Hw. pose proof (sh_nodup _ b M Hs) as Hnd. pose proof (sh_vals _ b M Hs) as Hv. destruct cl as [bs|]; cbn [width mat_apply] in *.
      - apply C08_block_product; assumption.
      - rewrite Nat.mul_1_r in *. eapply nok_mono; [apply C08_scalar_product; assumption|]. intros y' [L Hp]. split; [exact L|]. intros i Hi. rewrite <- (Hp i Hi).
        apply bsum_ext. intros j Hj. rewrite bdense_1. reflexivity. }
    eapply nok_mono; [exact H|]. intros y' [L Hp]. split; [exact L|]. intros I HI. rewrite <- (Hp I HI). apply bsum_ext. intros J HJ. rewrite HE by assumption. reflexivity.
  Qed.
  (** ... products with it are products with that matrix *)
  Theorem C83_apply cl real_text scan_real N body text (h : list (mcall F)) A x y : 0 < width cl -> cl <> Some 1 -> 0 < N -> understands real_text scan_real ->
    square_file real_text (N * width cl) body text -> full_body (N * width cl) body ->
    let a := file_matrix (width cl) N body in legal_calls cl h a ->
    let n := a_rows (acalls cl h a) * width cl in
    is_matrix cl (acalls cl h a) A -> length x = n -> length y = n ->
    nok (ndo M := matrix_from_file scan_real cl (Some text) in ndo M' := mcalls cl h M in mat_apply cl M' x y) (fun y' => length y' = n /\ is_prod n A x y').
  Proof.
    intros Hbs Hcl HN Hu Ht Hf a Hl n HA Hx Hy. eapply nok_bind; [apply (from_file_ok cl real_text scan_real N body text); assumption|]. fold a. intros M0 Hr0.
    eapply nok_bind; [apply (calls_ok cl h Hbs a M0 Hr0 Hl)|]. intros M Hr. apply (apply_refined cl (acalls cl h a)); assumption.
  Qed.
  Lemma file_is_matrix bs N body : 0 < bs -> full_body (N * bs) body ->
    forall I J, I < N * bs -> J < N * bs -> (if a_stored (file_matrix bs N body) (I / bs) (J / bs) then Some (written body I J) else Some s0) = Some (written body I J).
  Proof.
    intros Hbs Hf I J HI HJ. destruct (a_stored _ _ _) eqn:E; [reflexivity|]. rewrite written_not; [reflexivity|]. intros v Hv.
    assert (a_stored (file_matrix bs N body) (I / bs) (J / bs) = true); [|congruence]. cbn [a_stored file_matrix]. apply existsb_exists. eexists. split; [apply elem_of_list_In; exact Hv|].
    cbn [fst snd]. replace (Z.to_nat (Z.of_nat I + 1 - 1)) with I by lia. replace (Z.to_nat (Z.of_nat J + 1 - 1)) with J by lia. rewrite !Nat.eqb_refl. reflexivity.
  Qed.
  (** without such calls: products with the matrix written in the file *)
  Theorem C83_product cl real_text scan_real N body text x y : 0 < width cl -> cl <> Some 1 -> 0 < N -> understands real_text scan_real ->
    let n := N * width cl in
    square_file real_text n body text -> full_body n body -> length x = n -> length y = n ->
    nok (ndo M := matrix_from_file scan_real cl (Some text) in mat_apply cl M x y) (fun y' => length y' = n /\ is_prod n (written body) x y').
  Proof.
    intros Hbs Hcl HN Hu n Ht Hf Hx Hy. eapply nok_bind; [apply (from_file_ok cl real_text scan_real N body text); assumption|]. intros M Hr.
    apply (apply_refined cl (file_matrix (width cl) N body) M (written body) x y Hbs Hr); try assumption. exact (file_is_matrix (width cl) N body Hbs Hf).
  Qed.
End C83.

(** ** Cases *)
#[local] Instance ascii_eq : EqDecision ascii := ascii_dec.
Lemma full_check (n : nat) (body : list (Z * Z * Qc)) :
  forallb (fun t => (1 <=? t.1.1)%Z && (t.1.1 <=? Z.of_nat n)%Z && (1 <=? t.1.2)%Z && (t.1.2 <=? Z.of_nat n)%Z) body = true ->
  forallb (fun i => existsb (fun t => (t.1.1 =? Z.of_nat i)%Z) body) (seq 1 n) = true ->
  bool_decide (NoDup (fst <$> body)) = true -> full_body n body.
Proof.
  rewrite !forallb_forall. intros H1 H2 H3. apply bool_decide_eq_true in H3. split; [|split].
  - intros ri ci v Hv. apply elem_of_list_In, H1 in Hv. cbn [fst snd] in Hv. lia.
  - intros i Hi. specialize (H2 i ltac:(apply in_seq; lia)). apply existsb_exists in H2 as ([[ri ci] v] & Ht & E). cbn [fst] in E. apply elem_of_list_In in Ht.
    assert (ri = Z.of_nat i) as -> by lia. eauto.
  - intros k1 k2 t1 t2 K1 K2 E. apply (NoDup_lookup _ k1 k2 t1.1 H3); rewrite list_lookup_fmap, ?K1, ?K2; simpl; congruence.
Qed.
Definition bodyS : list (Z * Z * Qc) := [(3, 1, q 8); (1, 3, q 5); (2, 2, q 6); (1, 1, q 7); (3, 3, q (-9))]%Z.
Definition bodyB : list (Z * Z * Qc) := [(4, 1, q 3); (1, 1, q 4); (2, 2, q 5); (4, 4, q (-1)); (3, 3, q 2)]%Z.
Definition textB : string :=
  (lines ["%%MatrixMarket matrix coordinate real general"; "% comment"; "4 4 5"; "4 1 3"; "1 1 4"; "2 2 5"; "4 4 -1"; "3 3 2"])%string.
Lemma digit_text d c : String.get d "0123456789" = Some c -> int_text (String c "") (Z.of_nat d).
Proof. intros H. apply it_plain, dec_one, H. Qed.
Ltac digits := first [exact (digit_text 1 _ eq_refl)|exact (digit_text 2 _ eq_refl)|exact (digit_text 3 _ eq_refl)|exact (digit_text 4 _ eq_refl)|exact (digit_text 5 _ eq_refl)
  |exact (digit_text 6 _ eq_refl)|exact (digit_text 7 _ eq_refl)|exact (digit_text 8 _ eq_refl)].
Lemma blank_check s : forallb (fun c => bool_decide (c ∈ blanks)) (list_ascii_of_string s) = true -> blank_text s.
Proof. rewrite forallb_forall. intros H c Hc. apply elem_of_list_In, H, bool_decide_eq_true in Hc. exact Hc. Qed.
Ltac entry b1 w1 b2 w2 b3 w3 rest :=
  match goal with |- body_text ?r ?l _ => change (body_text r l (b1 ++ w1 ++ b2 ++ w2 ++ b3 ++ w3 ++ rest)%string) end;
  apply bt_entry; [apply blank_check; reflexivity|apply blank_check; reflexivity|apply blank_check; reflexivity|discriminate|discriminate
    |digits|digits|first [eexists; split; [digits|reflexivity]|eexists; split; [apply it_minus; first [exact (dec_one 9 _ eq_refl)|exact (dec_one 1 _ eq_refl)]|reflexivity]]
    |split; lia|split; lia|right; eexists _, _; split; [reflexivity|apply (bool_decide_unpack _); vm_compute; exact Logic.I]|].
Definition LF : string := String "010" "".
Lemma fileS_case : square_file whole_text 3 bodyS exText.
Proof.
  destruct C72_case as (Hh & Hc & Hs & E & _). eexists _, _, _, [], _. split; [exact E|split; [exact Hh|split; [exact Hc|split; [exact Hs|]]]].
  split; [intros n H; apply elem_of_nil in H as []|]. unfold bodyS.
  entry ""%string "3"%string " "%string "1"%string " "%string "8"%string (LF ++ "1 3 5  2" ++ LF ++ LF ++ "2" ++ LF ++ "6 1 1 7 3 3 -9" ++ LF)%string.
  entry LF "1"%string " "%string "3"%string " "%string "5"%string ("  2" ++ LF ++ LF ++ "2" ++ LF ++ "6 1 1 7 3 3 -9" ++ LF)%string.
  entry "  "%string "2"%string (LF ++ LF)%string "2"%string LF "6"%string (" 1 1 7 3 3 -9" ++ LF)%string.
  entry " "%string "1"%string " "%string "1"%string " "%string "7"%string (" 3 3 -9" ++ LF)%string.
  entry " "%string "3"%string " "%string "3"%string " "%string "-9"%string LF.
  apply bt_end.
Qed.
Lemma fileB_case : square_file whole_text 4 bodyB textB.
Proof.
  destruct C72_case as (Hh & Hc & _). exists "%%MatrixMarket matrix coordinate real general"%string, ["% comment"%string], "4 4 5"%string, [],
    (lines ["4 1 3"; "1 1 4"; "2 2 5"; "4 4 -1"; "3 3 2"])%string. split; [reflexivity|split; [exact Hh|split; [exact Hc|split]]].
  { split; [apply (bool_decide_unpack _); vm_compute; exact Logic.I|]. split; [discriminate|]. split.
    - intros n H. cbn [length] in H. rewrite !elem_of_cons, elem_of_nil in H. destruct H as [-> |[-> |[-> |[]]]]; split; simpl; lia.
    - exists ["4"; "4"; "5"]%string. split; [apply C07_words; reflexivity|]. repeat constructor; digits. }
  split; [intros n H; apply elem_of_nil in H as []|]. unfold bodyB.
  entry ""%string "4"%string " "%string "1"%string " "%string "3"%string (LF ++ lines ["1 1 4"; "2 2 5"; "4 4 -1"; "3 3 2"])%string.
  entry LF "1"%string " "%string "1"%string " "%string "4"%string (LF ++ lines ["2 2 5"; "4 4 -1"; "3 3 2"])%string.
  entry LF "2"%string " "%string "2"%string " "%string "5"%string (LF ++ lines ["4 4 -1"; "3 3 2"])%string.
  entry LF "4"%string " "%string "4"%string " "%string "-1"%string (LF ++ lines ["3 3 2"])%string.
  entry LF "3"%string " "%string "3"%string " "%string "2"%string LF.
  apply bt_end.
Qed.
(** the scalar class, and blocks of size two; then factor two, and a block set to other values *)
Definition afterB : list (mcall Qc) := [MScaleAll (q 2); MSubmitBlock 2 0 (q <$> [1; 0; 0; 1]%Z) 2 2].
Example C83_case :
  nok (ndo M := matrix_from_file scan_whole None (Some exText) in mat_apply None M (q <$> [1; 2; 3]%Z) (q <$> [0; 0; 0]%Z))
    (fun y => length y = 3 /\ is_prod 3 (written bodyS) (q <$> [1; 2; 3]%Z) y) /\
  written bodyS 2 0 = q 8 /\ written bodyS 2 1 = q 0 /\
  legal_calls (Some 2) afterB (file_matrix 2 2 bodyB) /\
  nok (ndo M := matrix_from_file scan_whole (Some 2) (Some textB) in mcalls (Some 2) afterB M)
    (fun M => nbrows M = 2 /\ pos M 0 1 = None /\ bdense RowMajor 2 M 2 0 = q 1 /\ bdense RowMajor 2 M 3 0 = q 0 /\ bdense RowMajor 2 M 3 3 = q (-2) /\ bdense RowMajor 2 M 0 1 = q 0).
Proof.
  assert (full_body 3 bodyS) as HS by (apply full_check; vm_compute; reflexivity). assert (full_body 4 bodyB) as HB by (apply full_check; vm_compute; reflexivity).
  split; [apply (C83_product None whole_text scan_whole 3 bodyS exText); [simpl; lia|discriminate|lia|exact C72_scan_case|exact fileS_case|exact HS|reflexivity|reflexivity]|].
  split; [reflexivity|]. split; [reflexivity|].
  assert (legal_calls (Some 2) afterB (file_matrix 2 2 bodyB)) as Hl.
  { split; [exact Logic.I|]. split; [|exact Logic.I]. simpl. repeat split; lia. }
  split; [exact Hl|]. eapply nok_mono; [apply (C83_object (Some 2) whole_text scan_whole 2 bodyB textB afterB); [simpl; lia|discriminate|lia|exact C72_scan_case|exact fileB_case|exact HB|exact Hl]|].
  intros M (H1 & H2 & H3). change (a_rows _) with 2 in H1, H2, H3. cbn [width] in *. split; [exact H1|].
  split. { destruct (pos M 0 1) eqn:E; [|reflexivity]. assert (pos M 0 1 <> None) as Hne by congruence. apply H2 in Hne; [discriminate Hne|lia..]. }
  split; [apply H3; [lia|lia|vm_compute; reflexivity]|]. split; [apply H3; [lia|lia|vm_compute; reflexivity]|].
  split; apply H3; try lia.
  - transitivity (Some (q 2 * q (-1))%Qc); [reflexivity|]. apply (f_equal Some). apply Qc_is_canon. vm_compute. reflexivity.
  - transitivity (Some (q 2 * q 0)%Qc); [reflexivity|]. apply (f_equal Some). apply Qc_is_canon. vm_compute. reflexivity.
Qed.

Print Assumptions C83_object.
Print Assumptions C83_apply.
Print Assumptions C83_product.
