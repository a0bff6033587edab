(** * C72, continued: dense files that end early, and indices that are not numbers *)
From Coq Require Import ZArith Ascii String QArith.Qcanon.
From Verif Require Import Base Alg SRMatrix Nd Coo CooSpec CooFacts CooRead PropCoo PropCooRead MMText PropMMText Inst.
Open Scope nat_scope.

#[local] Instance ascii_eq : EqDecision ascii := ascii_dec.

(** the text [s] consists of the values [vs] followed by the text [t] *)
Inductive values_cut {F} (real_text : string -> F -> Prop) (t : string) : list F -> string -> Prop :=
| vc_end : values_cut real_text t [] t
| vc_value b w v vs s : blank_text b -> real_text w v -> word_end s -> values_cut real_text t vs s -> values_cut real_text t (v :: vs) (b ++ w ++ s).

Lemma values_failed {F} {O : SOps F} scan_real k s e : read_values scan_real k (IStream s e true) = replicate k s0.
Proof.
  revert s e. induction k as [|k IH]; intros s e; [reflexivity|]. cbn [read_values replicate]. unfold get_real, good. cbn [failbit eofbit buf].
  rewrite andb_false_r. rewrite IH. reflexivity.
Qed.
Lemma values_ended {F} {O : SOps F} scan_real k s e : s = ""%string \/ e = false -> blank_text s -> read_values scan_real k (IStream s e false) = replicate k s0.
Proof.
  intros He Hs. destruct k as [|k]; [reflexivity|]. cbn [read_values replicate]. unfold get_real, good. cbn [eofbit failbit buf].
  assert (skipws s = ""%string) as E by (rewrite <- (str_app_nil s), skipws_blank by exact Hs; reflexivity). rewrite E.
  destruct e; [destruct He as [-> |]; [|discriminate]|]; cbn [negb andb]; rewrite values_failed; reflexivity.
Qed.
Lemma read_values_cut {F} {O : SOps F} real_text scan_real t vs s k : understands real_text scan_real -> blank_text t -> values_cut real_text t vs s ->
  forall e, s = ""%string \/ e = false -> read_values scan_real (length vs + k) (IStream s e false) = vs ++ replicate k s0.
Proof.
  intros Hs Ht. induction 1 as [|b w v vs s Hb Hw Hse H IH]; intros e He; [apply values_ended; assumption|].
  destruct (Hs _ _ Hw) as ((c & w' & -> & Hc) & _).
  assert (e = false) as -> by (destruct He as [He|He]; [apply app_empty in He as [_ He]; discriminate|exact He]).
  cbn [length Nat.add read_values]. rewrite (get_real_text real_text scan_real Hs _ _ v) by auto. cbn [app]. f_equal. apply IH.
  destruct (String.eqb_spec s ""); auto.
Qed.
(** Fewer values than announced: the vector is filled up with zeros, without an error *)
Theorem C72_short_dense_refuted :
  forall (F : Type) (O : SOps F) real_text scan_real header cs size m n extra (vs : list F) tail rest fuel,
  understands real_text scan_real -> dense_header header -> Forall comment cs -> blank_text tail ->
  sizes_line size (m :: n :: extra) -> values_cut real_text tail vs rest -> (Z.of_nat (length vs) < m * n)%Z -> is_int (m * n) -> length cs < fuel ->
  readDense_text scan_real fuel (Some (file_text header cs size rest)) = Ok (vs ++ replicate (Z.to_nat (m * n) - length vs) s0).
Proof.
  intros F O real_text scan_real header cs size m n extra vs tail rest fuel Hs (Hh & d & Hd & H1 & H2) Hcs Ht Hsz Hv Hl Hi Hf. unfold file_text, readDense_text.
  rewrite getline_nl by exact Hh. rewrite Hd. cbn [bind]. rewrite H1, H2.
  rewrite (sizes_text_ok cs size rest d _ fuel Hcs Hsz Hf) by (rewrite H1; simpl; lia). cbn [bind length Nat.ltb Nat.leb get lookup list_lookup].
  rewrite is_int_fits by exact Hi. cbn [negb]. destruct (Z.ltb_spec (m * n) 0); [lia|].
  replace (Z.to_nat (m * n)) with (length vs + (Z.to_nat (m * n) - length vs)) at 1 by lia.
  rewrite (read_values_cut real_text scan_real tail vs rest _ Hs Ht Hv) by auto. reflexivity.
Qed.

(** [s] starts with a character that cannot start a number *)
Definition no_number (s : string) : Prop :=
  exists c s', s = String c s' /\ c ∉ blanks /\ c ∉ list_ascii_of_string "+-0123456789".
Lemma not_digit c : c ∉ list_ascii_of_string "+-0123456789" -> is_digit c = false /\ Ascii.eqb c "-" = false /\ Ascii.eqb c "+" = false.
Proof.
  intros H. split; [|split]; [|apply Ascii.eqb_neq; intros ->; apply H; right; left|apply Ascii.eqb_neq; intros ->; apply H; left].
  destruct (is_digit c) eqn:E; [|reflexivity]. destruct H.
  destruct c as [b0 b1 b2 b3 b4 b5 b6 b7]. destruct b0, b1, b2, b3, b4, b5, b6, b7; vm_compute in E; try discriminate E; apply (bool_decide_unpack _); vm_compute; exact Logic.I.
Qed.
(** The column of the last entry announced is not a number: it is taken to be 0, before the first column, and the value is that of an
    earlier matrix (or zero), whatever value follows, without an error *)
Theorem C72_bad_column_refuted :
  forall (F : Type) (O : SOps F) real_text scan_real (old : list F) header cs size nr nc extra body b1 w1 b2 b3 ri rest fuel,
  understands real_text scan_real -> coordinate_header header -> Forall comment cs ->
  blank_text b1 -> blank_text b2 -> b2 <> ""%string -> no_number b3 -> int_text w1 ri -> is_int ri ->
  sizes_line size (nr :: nc :: Z.of_nat (length body + 1) :: extra) -> body_cut real_text (b1 ++ w1 ++ b2 ++ b3) body rest -> length cs < fuel ->
  read_text scan_real fuel old (Some (file_text header cs size rest)) =
  Ok (header, nr :: nc :: Z.of_nat (length body + 1) :: extra, body ++ [(ri, 0%Z, default s0 (old !! length body))]).
Proof.
  intros F O real_text scan_real old header cs size nr nc extra body b1 w1 b2 b3 ri rest fuel Hs Hh Hcs Hb1 Hb2 Hn2 Hb3 H1 Hi1 Hsz Hb Hf. unfold file_text.
  destruct (read_text_start scan_real header (lines cs ++ size ++ String "010" rest) Hh fuel old) as (d & Hd & ->).
  rewrite (sizes_text_ok cs size rest d _ fuel Hcs Hsz Hf) by (rewrite Hd; simpl; lia). cbn [bind get lookup list_lookup].
  destruct (Z.ltb_spec (Z.of_nat (length body + 1)) 0); [lia|]. rewrite Nat2Z.id.
  destruct (int_first _ _ H1) as (c & w' & Ew & _).
  assert (String.eqb rest "" = false) as Hne.
  { inversion Hb; subst; apply not_empty; [eauto|]. match goal with K : int_text ?w _ |- exists c w', ?w = _ => destruct (int_first _ _ K) as (? & ? & ? & _); eauto end. }
  destruct (read_cut real_text scan_real _ _ _ 1 Hs Hb 0 old false Hne eq_refl) as (e' & _ & He' & ->).
  assert (e' = false) as ->.
  { destruct e'; [|reflexivity]. specialize (He' eq_refl). apply app_empty in He' as [_ K]. apply app_empty in K as [K _]. rewrite Ew in K. discriminate. }
  cbn [read_entries].
  rewrite (get_int_text _ _ ri) by (auto using end_blank). rewrite app_not_empty by exact Hn2.
  destruct Hb3 as (c3 & s3 & -> & Hc1 & Hc2). destruct (not_digit c3 Hc2) as (D1 & D2 & D3).
  assert (get_int (IStream (b2 ++ String c3 s3) false false) = (Some 0%Z, IStream (String c3 s3) false true)) as ->.
  { unfold get_int. cbn [good eofbit failbit negb andb buf]. rewrite skipws_blank by exact Hb2. cbn [skipws]. rewrite not_blank by exact Hc1.
    unfold scan_int. rewrite D2, D3. cbn [scan_digits]. rewrite D1. reflexivity. }
  unfold get_real, good. cbn [eofbit failbit negb]. rewrite andb_false_r. reflexivity.
Qed.

Example C72_short_case :
  values_cut whole_text (String "010" "") [q 4] ("4" ++ String "010" "") /\ no_number "x 5" /\
  readDense_text scan_whole 9 (Some (lines ["%%MatrixMarket matrix array real general"; "2 1"; "4"]%string)) = Ok [q 4; q 0] /\
  read_text scan_whole 9 [q 7] (Some (lines ["%%MatrixMarket matrix coordinate real general"; "1 1 1"; "1 x 5"]%string)) =
    Ok ("%%MatrixMarket matrix coordinate real general"%string, [1; 1; 1]%Z, [(1, 0, q 7)]%Z).
Proof.
  split; [|split; [|split; vm_compute; reflexivity]].
  - apply (vc_value _ _ "" "4"); [intros c Hc; apply elem_of_nil in Hc as []| |right; eexists _, _; split; [reflexivity|right; right; left]|apply vc_end].
    exists 4%Z. split; [apply it_plain, (dec_one 4); reflexivity|reflexivity].
  - exists "x"%char, " 5"%string. split; [reflexivity|]. split; apply (bool_decide_unpack _); vm_compute; exact Logic.I.
Qed.

Print Assumptions C72_short_dense_refuted.
Print Assumptions C72_bad_column_refuted.
