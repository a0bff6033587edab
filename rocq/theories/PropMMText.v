(** * PropMMText: reading Matrix Market files from their characters (C72), and which characters are blanks (C07) *)
From Coq Require Import ZArith Ascii String QArith.Qcanon.
From Verif Require Import Base Alg SRMatrix Nd Coo CooSpec CooFacts CooRead PropCoo PropCooRead MMText Inst.
Open Scope nat_scope.

#[local] Instance ascii_eq : EqDecision ascii := ascii_dec.

(** ** Specification *)
(** space, tab, line feed, vertical tab, form feed, carriage return *)
Definition blanks : list ascii := [" "; "009"; "010"; "011"; "012"; "013"]%char.
Definition blank_text (s : string) : Prop := forall c, c ∈ list_ascii_of_string s -> c ∈ blanks.
(** a word ends here: nothing follows, or a blank *)
Definition word_end (s : string) : Prop := s = ""%string \/ exists c s', s = String c s' /\ c ∈ blanks.
(** the decimal digits [w] denote [n] *)
Inductive decimal : string -> Z -> Prop :=
| dec_one d c : String.get d "0123456789" = Some c -> decimal (String c "") (Z.of_nat d)
| dec_more w n d c : decimal w n -> String.get d "0123456789" = Some c -> decimal (w ++ String c "") (10 * n + Z.of_nat d).
Inductive int_text : string -> Z -> Prop :=
| it_plain w n : decimal w n -> int_text w n
| it_plus w n : decimal w n -> int_text (String "+" w) n
| it_minus w n : decimal w n -> int_text (String "-" w) (- n).
Definition is_int (n : Z) : Prop := (-2147483648 <= n <= 2147483647)%Z.
Definition no_newline (s : string) : Prop := "010"%char ∉ list_ascii_of_string s.
(** lines, each ended by a line feed *)
Fixpoint lines (ls : list string) : string := match ls with [] => ""%string | l :: ls => (l ++ String "010" (lines ls))%string end.
Definition comment (l : string) : Prop := no_newline l /\ String.get 0 l = Some "%"%char.
Section Spec.
  Context {F : Type}.
  (** [real_text w v]: the word [w] denotes the number [v] *)
  Variable real_text : string -> F -> Prop.
  (** numbers separated by blanks; anything may follow *)
  Inductive body_text : list (Z * Z * F) -> string -> Prop :=
  | bt_end s : body_text [] s
  | bt_entry b1 w1 b2 w2 b3 w3 ri ci v es s :
      blank_text b1 -> blank_text b2 -> blank_text b3 -> b2 <> ""%string -> b3 <> ""%string ->
      int_text w1 ri -> int_text w2 ci -> real_text w3 v -> is_int ri -> is_int ci -> word_end s -> body_text es s ->
      body_text ((ri, ci, v) :: es) (b1 ++ w1 ++ b2 ++ w2 ++ b3 ++ w3 ++ s).
  Inductive values_text : list F -> string -> Prop :=
  | vt_end s : values_text [] s
  | vt_value b w v vs s : blank_text b -> real_text w v -> word_end s -> values_text vs s -> values_text (v :: vs) (b ++ w ++ s).
  (** the library's conversion understands these words *)
  Definition understands (scan_real : string -> F * bool * string) : Prop := forall w v, real_text w v ->
    (exists c w', w = String c w' /\ c ∉ blanks) /\ forall s, word_end s -> scan_real (w ++ s)%string = (v, true, s).
End Spec.
(** the size line has these words, which denote these numbers *)
Definition sizes_line (line : string) (sizes : list Z) : Prop :=
  no_newline line /\ String.get 0 line <> Some "%"%char /\ (forall n, n ∈ sizes -> is_int n) /\
  exists ws, splits line ws /\ Forall2 int_text ws sizes.

(** ** C07 *)
Theorem C07_blanks : forall c, is_space c = true <-> c ∈ blanks.
Proof.
  intros c. assert (c ∈ blanks <-> bool_decide (c ∈ blanks) = true) as -> by (symmetry; apply bool_decide_eq_true).
  assert (is_space c = bool_decide (c ∈ blanks)) as ->; [|tauto].
  destruct c as [[] [] [] [] [] [] [] []]; reflexivity.
Qed.

(** ** Facts *)
Lemma space_blank c : c ∈ blanks -> is_space c = true. Proof. apply C07_blanks. Qed.
Lemma not_blank c : c ∉ blanks -> is_space c = false.
Proof. intros H. destruct (is_space c) eqn:E; [destruct H; apply C07_blanks, E|reflexivity]. Qed.
Lemma app_assoc (a b c : string) : ((a ++ b) ++ c = a ++ (b ++ c))%string. Proof. apply str_app_assoc. Qed.
Lemma skipws_blank b s : blank_text b -> skipws (b ++ s) = skipws s.
Proof.
  induction b as [|c b IH]; [reflexivity|]. intros H. cbn [append skipws]. rewrite space_blank by (apply H; left).
  apply IH. intros x Hx. apply H. right. exact Hx.
Qed.
Lemma skipws_word c w s : c ∉ blanks -> skipws (String c w ++ s) = (String c w ++ s)%string.
Proof. intros H. cbn [append skipws]. rewrite not_blank by exact H. reflexivity. Qed.
Lemma digit_spec d c : String.get d "0123456789" = Some c -> is_digit c = true /\ digit c = Z.of_nat d /\ c ∉ blanks /\ c <> "-"%char /\ c <> "+"%char.
Proof.
  intros H. do 10 (destruct d as [|d]; [injection H as <-; repeat split; try discriminate; apply (bool_decide_unpack _); vm_compute; exact Logic.I|]). destruct d; discriminate.
Qed.
Lemma scan_decimal w n : decimal w n -> forall any acc s, scan_digits any acc (w ++ s) = scan_digits true (acc * 10 ^ Z.of_nat (String.length w) + n) s.
Proof.
  induction 1 as [d c Hd|w n d c Hw IH Hd]; intros any acc s.
  - cbn [append scan_digits String.length]. destruct (digit_spec _ _ Hd) as (-> & -> & _). f_equal. change (10 ^ Z.of_nat 1)%Z with 10%Z. lia.
  - rewrite app_assoc, IH. cbn [append scan_digits]. destruct (digit_spec _ _ Hd) as (-> & -> & _). f_equal.
    assert (String.length (w ++ String c "") = S (String.length w)) as -> by (clear; induction w as [|x w IH]; [reflexivity|cbn [append String.length]; f_equal; exact IH]).
    rewrite Nat2Z.inj_succ, Z.pow_succ_r by lia. ring.
Qed.
Lemma scan_end any acc s : word_end s -> scan_digits any acc s = (any, acc, s).
Proof.
  intros [-> |(c & s' & -> & Hc)]; [reflexivity|]. cbn [scan_digits]. 
  assert (is_digit c = false) as ->; [|reflexivity].
  unfold blanks in Hc. repeat (apply elem_of_cons in Hc as [-> |Hc]; [reflexivity|]). apply elem_of_nil in Hc as [].
Qed.
Lemma decimal_first w n : decimal w n -> exists c w', w = String c w' /\ c ∉ blanks /\ c <> "-"%char /\ c <> "+"%char.
Proof.
  induction 1 as [d c Hd|w n d c Hw (c' & w' & -> & H)]; [|eexists _, _; split; [reflexivity|exact H]].
  eexists _, _. split; [reflexivity|]. apply (digit_spec _ _ Hd).
Qed.
Lemma int_first w n : int_text w n -> exists c w', w = String c w' /\ c ∉ blanks.
Proof.
  intros [w' n' H|w' n' H|w' n' H].
  - destruct (decimal_first _ _ H) as (c & v & -> & Hb & _). eauto.
  - eexists _, _. split; [reflexivity|]. apply (bool_decide_unpack _). vm_compute. exact Logic.I.
  - eexists _, _. split; [reflexivity|]. apply (bool_decide_unpack _). vm_compute. exact Logic.I.
Qed.
Lemma scan_int_text w n s : int_text w n -> word_end s -> scan_int (w ++ s) = Some (n, s).
Proof.
  intros [w' n' H|w' n' H|w' n' H] Hs; unfold scan_int.
  - destruct (decimal_first _ _ H) as (c & v & -> & _ & Hm & Hp). cbn [append].
    apply Ascii.eqb_neq in Hm as ->. apply Ascii.eqb_neq in Hp as ->. pose proof (scan_decimal _ _ H false 0%Z s) as E. cbn [append] in E.
    rewrite E, scan_end by exact Hs. reflexivity.
  - cbn [append]. change (Ascii.eqb "+" "-") with false. change (Ascii.eqb "+" "+") with true. cbn iota.
    rewrite (scan_decimal _ _ H), scan_end by exact Hs. reflexivity.
  - cbn [append]. change (Ascii.eqb "-" "-") with true. cbn iota. rewrite (scan_decimal _ _ H), scan_end by exact Hs. reflexivity.
Qed.
Lemma is_int_fits n : is_int n -> fits_int n = true.
Proof. intros [H1 H2]. unfold fits_int, int_min, int_max. rewrite andb_true_iff, !Z.leb_le. lia. Qed.
Lemma app_empty (a b : string) : (a ++ b)%string = ""%string -> a = ""%string /\ b = ""%string.
Proof. destruct a; [auto|discriminate]. Qed.

(** *** Integers and lines *)
Lemma get_int_text b w n s : blank_text b -> int_text w n -> is_int n -> word_end s ->
  get_int (IStream (b ++ w ++ s) false false) = (Some n, IStream s (String.eqb s "") false).
Proof.
  intros Hb Hw Hn Hs. unfold get_int. cbn [good eofbit failbit negb andb buf]. rewrite skipws_blank by exact Hb.
  pose proof (scan_int_text _ _ _ Hw Hs) as E. destruct (int_first _ _ Hw) as (c & w' & -> & Hc). rewrite skipws_word by exact Hc.
  cbn [append] in *. rewrite E, (is_int_fits _ Hn). reflexivity.
Qed.
Lemma get_int_end s e : s = ""%string \/ e = false -> blank_text s -> get_int (IStream s e false) = (None, IStream "" true true).
Proof.
  intros H Hs. unfold get_int, good. cbn [eofbit failbit buf].
  assert (skipws s = ""%string) as E by (rewrite <- (str_app_nil s), skipws_blank by exact Hs; reflexivity). rewrite E.
  destruct e; [destruct H as [-> |]; [reflexivity|discriminate]|reflexivity].
Qed.
Lemma take_line_nl l s : no_newline l -> take_line (l ++ String "010" s) = (l, s, true).
Proof.
  induction l as [|c l IH]; intros H; cbn [append take_line]; [reflexivity|].
  assert (Ascii.eqb c newline = false) as -> by (apply Ascii.eqb_neq; intros ->; apply H; left).
  rewrite IH by (intros Hx; apply H; right; exact Hx). reflexivity.
Qed.
Lemma take_line_end l : no_newline l -> take_line l = (l, ""%string, false).
Proof.
  induction l as [|c l IH]; intros H; cbn [take_line]; [reflexivity|].
  assert (Ascii.eqb c newline = false) as -> by (apply Ascii.eqb_neq; intros ->; apply H; left).
  rewrite IH by (intros Hx; apply H; right; exact Hx). reflexivity.
Qed.
Lemma getline_nl l s old : no_newline l -> getline (IStream (l ++ String "010" s) false false) old = (l, IStream s false false).
Proof. intros H. unfold getline. cbn [good eofbit failbit negb andb buf]. rewrite take_line_nl by exact H. reflexivity. Qed.
Lemma skip_one fuel st line : String.get 0 line = Some "%"%char -> skip_comments (S fuel) st line = let '(l, st) := getline st line in skip_comments fuel st l.
Proof. destruct line as [|c line]; [discriminate|]. cbn [String.get]. intros [= ->]. reflexivity. Qed.
Lemma skip_stop fuel st line : String.get 0 line <> Some "%"%char -> skip_comments fuel st line = Ok (line, st).
Proof.
  destruct line as [|c line]; intros H; destruct fuel; cbn [skip_comments]; try reflexivity.
  all: destruct (Ascii.eqb_spec c "%") as [-> |]; [destruct H; reflexivity|reflexivity].
Qed.
Lemma skip_lines cs l s : Forall comment cs -> no_newline l -> String.get 0 l <> Some "%"%char ->
  forall fuel line, String.get 0 line = Some "%"%char -> length cs < fuel ->
  skip_comments fuel (IStream (lines cs ++ l ++ String "010" s) false false) line = Ok (l, IStream s false false).
Proof.
  intros Hcs Hl Hp. induction Hcs as [|c cs [Hc1 Hc2] Hcs IH]; intros fuel line Hline Hf; (destruct fuel as [|fuel]; [lia|]); rewrite skip_one by exact Hline; cbn [lines].
  - cbn [append]. rewrite getline_nl by exact Hl. apply skip_stop, Hp.
  - rewrite app_assoc. cbn [append]. rewrite getline_nl by exact Hc1. apply IH; [exact Hc2|simpl in Hf; lia].
Qed.
Lemma sizes_words ws sizes : Forall2 int_text ws sizes -> (forall n, n ∈ sizes -> is_int n) -> mapr stoi ws = Ok sizes.
Proof.
  induction 1 as [|w n ws sizes Hw H IH]; intros Hi; [reflexivity|]. cbn [mapr]. unfold stoi at 1.
  destruct (int_first _ _ Hw) as (c & w' & Ew & Hc).
  assert (scan_int (skipws w) = Some (n, ""%string)) as ->.
  { rewrite <- (str_app_nil w). rewrite Ew. rewrite skipws_word by exact Hc. rewrite <- Ew. apply scan_int_text; [exact Hw|left; reflexivity]. }
  rewrite is_int_fits by (apply Hi; left). cbn [bind]. rewrite IH by (intros x Hx; apply Hi; right; exact Hx). reflexivity.
Qed.
Lemma sizes_text_ok cs line s d sizes fuel : Forall comment cs -> sizes_line line sizes -> length cs < fuel ->
  (match storagetype d with COORDINATE => 3 | ARRAY => 2 end) <= length sizes ->
  sizes_text fuel (IStream (lines cs ++ line ++ String "010" s) false false) d = Ok (sizes, IStream s false false).
Proof.
  intros Hcs (H1 & H2 & H3 & ws & Hws & H4) Hf Hn. unfold sizes_text. rewrite (skip_lines cs line s Hcs H1 H2) by (try reflexivity; exact Hf). cbn [bind].
  apply C07_words in Hws as ->. pose proof (Forall2_length _ _ _ H4) as Hlen.
  destruct (Nat.ltb_spec (length ws) (match storagetype d with COORDINATE => 3 | ARRAY => 2 end)); [lia|].
  rewrite (sizes_words _ _ H4 H3). reflexivity.
Qed.

Section Body.
  Context {F : Type} {O : SOps F}.
  Variables (real_text : string -> F -> Prop) (scan_real : string -> F * bool * string).
  Hypothesis Hscan : understands real_text scan_real.
  Lemma get_real_text b w v s x : blank_text b -> real_text w v -> word_end s ->
    get_real scan_real (IStream (b ++ w ++ s) false false) x = (v, IStream s (String.eqb s "") false).
  Proof.
    intros Hb Hw Hs. unfold get_real. cbn [good eofbit failbit negb andb buf]. rewrite skipws_blank by exact Hb.
    destruct (Hscan _ _ Hw) as ((c & w' & -> & Hc) & Hr). specialize (Hr _ Hs). rewrite skipws_word by exact Hc. cbn [append] in *. rewrite Hr. reflexivity.
  Qed.
  Lemma end_blank b s : blank_text b -> b <> ""%string -> word_end (b ++ s).
  Proof. destruct b as [|c b]; [tauto|]. intros Hb _. right. exists c, (b ++ s)%string. split; [reflexivity|]. apply Hb. left. Qed.
  Lemma not_empty b w s : (exists c w', w = String c w') -> String.eqb (b ++ w ++ s) "" = false.
  Proof. intros (c & w' & ->). destruct b; reflexivity. Qed.
  Lemma app_not_empty b s : b <> ""%string -> String.eqb (b ++ s) "" = false.
  Proof. destruct b; [tauto|reflexivity]. Qed.
  Lemma read_entry k i old b1 w1 b2 w2 b3 w3 ri ci v s :
    blank_text b1 -> blank_text b2 -> blank_text b3 -> b2 <> ""%string -> b3 <> ""%string ->
    int_text w1 ri -> int_text w2 ci -> real_text w3 v -> is_int ri -> is_int ci -> word_end s ->
    read_entries scan_real (S k) i old (IStream (b1 ++ w1 ++ b2 ++ w2 ++ b3 ++ w3 ++ s) false false) =
    let! (es, st) := read_entries scan_real k (i + 1) old (IStream s (String.eqb s "") false) in Ok ((ri, ci, v) :: es, st).
  Proof.
    intros Hb1 Hb2 Hb3 Hn2 Hn3 H1 H2 H3 Hi1 Hi2 Hs. cbn [read_entries].
    rewrite (get_int_text _ _ ri) by (auto using end_blank). rewrite app_not_empty by exact Hn2.
    rewrite (get_int_text _ _ ci) by (auto using end_blank). rewrite app_not_empty by exact Hn3.
    rewrite (get_real_text _ _ v) by auto. reflexivity.
  Qed.
  Lemma body_start es s : body_text real_text es s -> es = [] \/ String.eqb s "" = false.
  Proof. intros [s'|b1 w1 b2 w2 b3 w3 ri ci v es' s' _ _ _ _ _ H1]; [left; reflexivity|right]. apply not_empty. destruct (int_first _ _ H1) as (c & w & -> & _). eauto. Qed.
  Lemma read_entries_text es s : body_text real_text es s -> forall i old e, es = [] \/ e = false ->
    exists st, read_entries scan_real (length es) i old (IStream s e false) = Ok (es, st).
  Proof.
    induction 1 as [s|b1 w1 b2 w2 b3 w3 ri ci v es s Hb1 Hb2 Hb3 Hn2 Hn3 H1 H2 H3 Hi1 Hi2 Hs H IH]; intros i old e He; [eexists; reflexivity|].
    destruct He as [He| ->]; [discriminate He|]. cbn [length]. rewrite (read_entry _ _ _ _ _ _ _ _ _ ri ci v) by auto.
    destruct (IH (i + 1) old (String.eqb s "") (body_start _ _ H)) as (st & ->). eexists. reflexivity.
  Qed.
  Lemma values_start vs s : values_text real_text vs s -> vs = [] \/ String.eqb s "" = false.
  Proof. intros [s'|b w v vs' s' Hb Hw Hs H]; [left; reflexivity|right]. apply not_empty. destruct (Hscan _ _ Hw) as ((c & w' & -> & _) & _). eauto. Qed.
  Lemma read_values_text vs s : values_text real_text vs s -> forall e, vs = [] \/ e = false -> read_values scan_real (length vs) (IStream s e false) = vs.
  Proof.
    induction 1 as [s|b w v vs s Hb Hw Hs H IH]; intros e He; [reflexivity|]. destruct He as [He| ->]; [discriminate He|]. cbn [length read_values].
    rewrite (get_real_text _ _ v) by auto. f_equal. apply IH, (values_start _ _ H).
  Qed.
End Body.

(** ** C72 *)
(** the kinds of files which are read *)
Definition coordinate_header (header : string) : Prop := no_newline header /\
  exists d, getMMDescription header = Ok d /\ storagetype d = COORDINATE /\ scalartype d <> PATTERN /\ matrixtype d = GENERAL.
Definition dense_header (header : string) : Prop := no_newline header /\
  exists d, getMMDescription header = Ok d /\ storagetype d = ARRAY /\ matrixtype d = GENERAL.
(** first line, comments, size line, the rest *)
Definition file_text (header : string) (cs : list string) (size : string) (rest : string) : string :=
  (header ++ String "010" (lines cs ++ size ++ String "010" rest))%string.
Lemma lines_length cs s : length cs <= String.length (lines cs ++ s).
Proof.
  assert (forall a b, String.length (a ++ b) = String.length a + String.length b) as Hl by (intros a b; induction a as [|c a IH]; [reflexivity|cbn [append String.length]; rewrite IH; reflexivity]).
  rewrite Hl. induction cs as [|c cs IH]; cbn [lines length String.length]; [lia|]. rewrite Hl. cbn [String.length]. lia.
Qed.
Lemma enough_fuel header cs size rest : length cs < S (S (String.length (file_text header cs size rest))).
Proof.
  unfold file_text. assert (forall a b, String.length (a ++ b) = String.length a + String.length b) as Hl by (intros a b; induction a as [|c a IH]; [reflexivity|cbn [append String.length]; rewrite IH; reflexivity]).
  rewrite Hl. cbn [String.length]. pose proof (lines_length cs (size ++ String "010" rest)). lia.
Qed.
Lemma read_text_start {F} {O : SOps F} scan_real header rest : coordinate_header header -> forall fuel (old : list F),
  exists d, storagetype d = COORDINATE /\ read_text scan_real fuel old (Some (header ++ String "010" rest)%string) =
  let! (sizes, st) := sizes_text fuel (IStream rest false false) d in
  let! nnz := get sizes 2 in
  if (nnz <? 0)%Z then Throw "length_error" else
  let! (body, _) := read_entries scan_real (Z.to_nat nnz) 0 old st in Ok (header, sizes, body).
Proof.
  intros (Hn & d & Hd & H1 & H2 & H3) fuel old. exists d. split; [exact H1|]. unfold read_text. rewrite getline_nl by exact Hn. rewrite Hd. cbn [bind]. rewrite H1, H3.
  destruct (scalartype d); try reflexivity. destruct H2. reflexivity.
Qed.

(** The numbers of a file are read as they are written, whatever comments it has, however the numbers are spaced and broken into lines,
    and whatever follows the last entry announced *)
Theorem C72_numbers :
  forall (F : Type) (O : SOps F) real_text scan_real (old : list F) header cs size nr nc extra body rest fuel,
  understands real_text scan_real -> coordinate_header header -> Forall comment cs ->
  sizes_line size (nr :: nc :: Z.of_nat (length body) :: extra) -> body_text real_text body rest -> length cs < fuel ->
  read_text scan_real fuel old (Some (file_text header cs size rest)) = Ok (header, nr :: nc :: Z.of_nat (length body) :: extra, body).
Proof.
  intros F O real_text scan_real old header cs size nr nc extra body rest fuel Hs Hh Hcs Hsz Hb Hf. unfold file_text.
  destruct (read_text_start scan_real header (lines cs ++ size ++ String "010" rest) Hh fuel old) as (d & Hd & ->).
  rewrite (sizes_text_ok cs size rest d _ fuel Hcs Hsz Hf) by (rewrite Hd; simpl; lia). cbn [bind get lookup list_lookup].
  destruct (Z.ltb_spec (Z.of_nat (length body)) 0); [lia|]. rewrite Nat2Z.id.
  destruct (read_entries_text real_text scan_real Hs body rest Hb 0 old false (or_intror eq_refl)) as (st & ->). reflexivity.
Qed.
(** ... and so the matrix has exactly the entries written in the file *)
Theorem C72_matrix :
  forall (F : Type) (O : SOps F) real_text scan_real (old : coo F) header cs size (nr nc : nat) extra body rest,
  understands real_text scan_real -> coordinate_header header -> Forall comment cs ->
  sizes_line size (Z.of_nat nr :: Z.of_nat nc :: Z.of_nat (length body) :: extra) -> (forall n, n ∈ extra -> (0 <= n)%Z) ->
  body_text real_text body rest ->
  0 < nr -> (forall ri ci v, (ri, ci, v) ∈ body -> (1 <= ri <= Z.of_nat nr /\ 1 <= ci <= Z.of_nat nc)%Z) ->
  (forall i, 1 <= i <= nr -> exists ci v, (Z.of_nat i, ci, v) ∈ body) ->
  nok (readMatrixMarket_text scan_real old (Some (file_text header cs size rest))) (fun c =>
    coo_ok c /\ nrows c = nr /\ ncols c = nc /\
    entries c ≡ₚ (fun t => Entry (Z.to_nat (t.1.1 - 1)) (Z.to_nat (t.1.2 - 1)) t.2) <$> body /\
    (forall k1 k2 e1 e2, k1 < k2 -> entries c !! k1 = Some e1 -> entries c !! k2 = Some e2 ->
      rowind e1 < rowind e2 \/ rowind e1 = rowind e2 /\ colind e1 <= colind e2)).
Proof.
  intros F O real_text scan_real old header cs size nr nc extra body rest Hs Hh Hcs Hsz Hex Hb Hnr Hin Hall.
  unfold readMatrixMarket_text. cbn [from_option id].
  rewrite (C72_numbers F O real_text scan_real _ header cs size (Z.of_nat nr) (Z.of_nat nc) extra body rest _ Hs Hh Hcs Hsz Hb (enough_fuel header cs size rest)).
  apply (nok_bind _ _ (fun x => x = (header, Z.of_nat nr :: Z.of_nat nc :: Z.of_nat (length body) :: extra, body))); [apply nok_lift; reflexivity|]. intros x ->. cbn beta iota.
  assert (as_file header (Z.of_nat nr :: Z.of_nat nc :: Z.of_nat (length body) :: extra) body =
    Some (MMFile header (nr :: nc :: length ((fun t => (Z.to_nat t.1.1, Z.to_nat t.1.2, t.2)) <$> body) :: (Z.to_nat <$> extra)) ((fun t => (Z.to_nat t.1.1, Z.to_nat t.1.2, t.2)) <$> body))) as ->.
  { unfold as_file. rewrite fmap_length.
    assert (forallb (fun n => 0 <=? n)%Z (Z.of_nat nr :: Z.of_nat nc :: Z.of_nat (length body) :: extra) = true) as ->.
    { apply forallb_forall. intros n Hn. apply Z.leb_le. destruct Hn as [<-|[<-|[<-|Hn]]]; try lia. apply Hex, elem_of_list_In, Hn. }
    assert (forallb (fun t => (1 <=? t.1.1) && (1 <=? t.1.2))%Z body = true) as ->.
    { apply forallb_forall. intros [[ri ci] v] Ht. apply elem_of_list_In in Ht. apply Hin in Ht. cbn. rewrite andb_true_iff, !Z.leb_le. lia. }
    cbn [andb fmap list_fmap]. rewrite !Nat2Z.id. reflexivity. }
  destruct Hh as (_ & d & Hd & H1 & H2 & H3).
  eapply nok_mono; [apply (C06_read F old header d); auto|].
  - intros t Ht. apply elem_of_list_fmap in Ht as ([[ri ci] v] & -> & Ht). apply Hin in Ht. cbn. lia.
  - intros i Hi. destruct (Hall i Hi) as (ci & v & Ht). exists (i, Z.to_nat ci, v). split; [|reflexivity].
    apply elem_of_list_fmap. exists (Z.of_nat i, ci, v). cbn. rewrite Nat2Z.id. auto.
  - cbn beta. intros c (G1 & G2 & G3 & G4 & G5). split; [exact G1|]. split; [exact G2|]. split; [exact G3|]. split; [|exact G5].
    rewrite G4, <- list_fmap_compose. apply Permutation_refl'. apply list_fmap_ext. intros k [[ri ci] v] Hk. unfold zero_based. cbn. f_equal; lia.
Qed.
(** Dense files: the values as written *)
Theorem C72_dense :
  forall (F : Type) (O : SOps F) real_text scan_real header cs size m n extra (vs : list F) rest fuel,
  understands real_text scan_real -> dense_header header -> Forall comment cs ->
  sizes_line size (m :: n :: extra) -> values_text real_text vs rest -> Z.of_nat (length vs) = (m * n)%Z -> is_int (m * n) -> length cs < fuel ->
  readDense_text scan_real fuel (Some (file_text header cs size rest)) = Ok vs.
Proof.
  intros F O real_text scan_real header cs size m n extra vs rest fuel Hs (Hh & d & Hd & H1 & H2) Hcs Hsz Hv Hl Hi Hf. unfold file_text, readDense_text.
  rewrite getline_nl by exact Hh. rewrite Hd. cbn [bind]. rewrite H1, H2.
  rewrite (sizes_text_ok cs size rest d _ fuel Hcs Hsz Hf) by (rewrite H1; simpl; lia). cbn [bind length Nat.ltb Nat.leb get lookup list_lookup].
  rewrite is_int_fits by exact Hi. cbn [negb]. destruct (Z.ltb_spec (m * n) 0); [lia|]. rewrite <- Hl, Nat2Z.id.
  rewrite (read_values_text real_text scan_real Hs vs rest Hv) by auto. reflexivity.
Qed.

(** *** Files which are not as they should be *)
(** A file which ends in a comment, or right behind the first line, without a line feed: the reader does not end *)
Lemma skip_forever st line : good st = false -> String.get 0 line = Some "%"%char -> forall fuel, skip_comments fuel st line = Fuel.
Proof.
  intros Hg Hl fuel. revert st Hg. induction fuel as [|fuel IH]; intros st Hg.
  - destruct line as [|c line]; [discriminate|]. injection Hl as ->. reflexivity.
  - rewrite skip_one by exact Hl. unfold getline. rewrite Hg. apply IH. unfold good. cbn. apply andb_false_r.
Qed.
Lemma skip_hang cs last : Forall comment cs -> comment last -> forall fuel line, String.get 0 line = Some "%"%char ->
  skip_comments fuel (IStream (lines cs ++ last) false false) line = Fuel.
Proof.
  intros Hcs [Hl1 Hl2]. induction Hcs as [|c cs [Hc1 Hc2] Hcs IH]; intros fuel line Hline; (destruct fuel as [|fuel]; [destruct line as [|ch line]; [discriminate|]; injection Hline as ->; reflexivity|]);
    rewrite skip_one by exact Hline; cbn [lines].
  - cbn [append]. unfold getline. cbn [good eofbit failbit negb andb buf]. rewrite take_line_end by exact Hl1. apply skip_forever; [|exact Hl2].
    reflexivity.
  - rewrite app_assoc. cbn [append]. rewrite getline_nl by exact Hc1. apply IH, Hc2.
Qed.
Theorem C72_unfinished_file_refuted :
  forall (F : Type) (O : SOps F) scan_real (old : list F) header cs last,
  coordinate_header header -> Forall comment cs -> comment last ->
  forall fuel, read_text scan_real fuel old (Some (header ++ String "010" (lines cs ++ last))%string) = Fuel /\ read_text scan_real fuel old (Some header) = Fuel.
Proof.
  intros F O scan_real old header cs last Hh Hcs Hl fuel. split.
  - destruct (read_text_start scan_real header (lines cs ++ last) Hh fuel old) as (d & Hd & ->).
    unfold sizes_text. rewrite (skip_hang cs last Hcs Hl) by reflexivity. reflexivity.
  - destruct Hh as (Hn & d & Hd & H1 & H2 & H3). unfold read_text, getline. cbn [good eofbit failbit negb andb buf]. rewrite take_line_end by exact Hn. rewrite Hd. cbn [bind].
    rewrite H1, H3. unfold sizes_text. rewrite skip_forever by reflexivity. destruct (scalartype d); try reflexivity. destruct H2. reflexivity.
Qed.
(** If the bound used by the model is reached, then the loop never ends *)
Lemma take_line_shorter s l r : take_line s = (l, r, true) -> String.length r < String.length s.
Proof.
  revert l r. induction s as [|c s IH]; intros l r; cbn [take_line]; [discriminate|]. destruct (Ascii.eqb c newline); [intros [= _ <-]; cbn [String.length]; lia|].
  destruct (take_line s) as [[l' r'] b] eqn:E. intros [= _ <- ->]. specialize (IH _ _ eq_refl). cbn [String.length]. lia.
Qed.
Lemma skip_fuel n st line : skip_comments n st line = Fuel -> (good st = true -> String.length (buf st) + 2 <= n) -> 1 <= n -> forall m, skip_comments m st line = Fuel.
Proof.
  revert st line. induction n as [|n IH]; intros st line H Hg Hn m; [lia|].
  destruct (decide (String.get 0 line = Some "%"%char)) as [E|E]; [|rewrite skip_stop in H by exact E; discriminate].
  destruct (good st) eqn:Eg; [|apply skip_forever; auto]. rewrite skip_one in H by exact E.
  destruct m as [|m]; [destruct line as [|ch line]; [discriminate|]; injection E as ->; reflexivity|]. rewrite skip_one by exact E.
  specialize (Hg eq_refl). unfold getline in *. rewrite Eg in *. destruct (take_line (buf st)) as [[l r] []] eqn:Et.
  - pose proof (take_line_shorter _ _ _ Et). apply IH; [exact H|cbn [buf]; lia|lia].
  - apply IH; [exact H|discriminate|lia].
Qed.
Lemma mapr_no_fuel ws : mapr stoi ws <> Fuel.
Proof.
  induction ws as [|w ws IH]; [discriminate|]. cbn [mapr]. unfold stoi at 1. destruct (scan_int (skipws w)) as [[n r]|]; [|discriminate].
  destruct (fits_int n); [|discriminate]. cbn [bind]. destruct (mapr stoi ws); try discriminate. tauto.
Qed.
Lemma entries_no_fuel {F} {O : SOps F} scan_real k : forall i (old : list F) st, read_entries scan_real k i old st <> Fuel.
Proof.
  induction k as [|k IH]; intros i old st; [discriminate|]. cbn [read_entries]. destruct (get_int st) as [ri st1]. destruct (get_int st1) as [ci st2].
  destruct (get_real scan_real st2 _) as [v st3]. destruct ri, ci; try discriminate. specialize (IH (i + 1) old st3).
  destruct (read_entries scan_real k (i + 1) old st3) as [[es st4]| | |]; try discriminate. tauto.
Qed.
Theorem C72_bound_suffices :
  forall (F : Type) (O : SOps F) scan_real (old : list F) text,
  read_text scan_real (S (S (String.length text))) old (Some text) = Fuel -> forall fuel, read_text scan_real fuel old (Some text) = Fuel.
Proof.
  intros F O scan_real old text H fuel. revert H. unfold read_text.
  destruct (getline (IStream text false false) "") as [header st] eqn:Eg.
  assert (good st = true -> String.length (buf st) < String.length text) as Hst.
  { revert Eg. unfold getline. cbn [good eofbit failbit negb andb buf]. destruct (take_line text) as [[l r] []] eqn:Et; intros [= <- <-]; [|discriminate].
    intros _. apply (take_line_shorter _ _ _ Et). }
  destruct (getMMDescription header) as [d| | |] eqn:Ed; cbn [bind]; auto.
  destruct (storagetype d); auto. destruct (scalartype d); auto; destruct (matrixtype d); auto; unfold sizes_text.
  all: destruct (skip_comments (S (S (String.length text))) st "%") as [[line st']| | |] eqn:Es; cbn [bind].
  all: try (intros _; rewrite (skip_fuel _ _ _ Es) by (try lia; intros Hg; specialize (Hst Hg); lia); reflexivity); try discriminate.
  all: destruct (_ <? _); try discriminate; pose proof (mapr_no_fuel (words line)) as Hm; destruct (mapr stoi (words line)) as [sizes| | |]; try discriminate; [|tauto]; cbn [bind].
  all: unfold get; destruct (sizes !! 2) as [nnz|]; try discriminate; cbn [bind]; destruct (nnz <? 0)%Z; try discriminate.
  all: pose proof (entries_no_fuel scan_real (Z.to_nat nnz) 0 old st') as He; destruct (read_entries scan_real (Z.to_nat nnz) 0 old st') as [[es st4]| | |]; try discriminate; tauto.
Qed.
(** A blank line in front of the size line, which the format allows, ends the program *)
Lemma words_blank b : blank_text b -> words b = [].
Proof.
  unfold words. induction b as [|c b IH]; intros H; [reflexivity|]. cbn [words_from]. rewrite space_blank by (apply H; left). cbn. apply IH.
  intros x Hx. apply H. right. exact Hx.
Qed.
Theorem C72_blank_line_refuted :
  forall (F : Type) (O : SOps F) scan_real (old : list F) header cs blank rest fuel,
  coordinate_header header -> Forall comment cs -> blank_text blank -> no_newline blank -> length cs < fuel ->
  read_text scan_real fuel old (Some (file_text header cs blank rest)) = Throw "abort".
Proof.
  intros F O scan_real old header cs blank rest fuel Hh Hcs Hb Hn Hf. unfold file_text.
  destruct (read_text_start scan_real header (lines cs ++ blank ++ String "010" rest) Hh fuel old) as (d & Hd & ->).
  assert (String.get 0 blank <> Some "%"%char) as Hp.
  { destruct blank as [|c blank]; [discriminate|]. intros [= ->]. assert ("%"%char ∈ blanks) as Hc by (apply Hb; left). revert Hc. apply (bool_decide_unpack _). vm_compute. exact Logic.I. }
  unfold sizes_text. rewrite (skip_lines cs blank rest Hcs Hn Hp) by (try reflexivity; exact Hf).
  cbn [bind]. rewrite (words_blank _ Hb), Hd. reflexivity.
Qed.
(** The last value is missing: the file is read without complaint, and the entry has the value which its place in the array had before
    (zero in a new object) *)
(** [body_cut es s t]: the text [s] consists of the entries [es] followed by the text [t] *)
Inductive body_cut {F} (real_text : string -> F -> Prop) (t : string) : list (Z * Z * F) -> string -> Prop :=
| bc_end : body_cut real_text t [] t
| bc_entry b1 w1 b2 w2 b3 w3 ri ci v es s :
    blank_text b1 -> blank_text b2 -> blank_text b3 -> b2 <> ""%string -> b3 <> ""%string ->
    int_text w1 ri -> int_text w2 ci -> real_text w3 v -> is_int ri -> is_int ci -> word_end s -> body_cut real_text t es s ->
    body_cut real_text t ((ri, ci, v) :: es) (b1 ++ w1 ++ b2 ++ w2 ++ b3 ++ w3 ++ s).
Lemma read_cut {F} {O : SOps F} real_text scan_real t es s k : understands real_text scan_real -> body_cut real_text t es s ->
  forall i (old : list F) e, String.eqb s "" = false -> e = false ->
  exists e', (es = [] -> e' = e) /\ (e' = true -> t = ""%string) /\
  read_entries scan_real (length es + k) i old (IStream s e false) =
  let! (es', st) := read_entries scan_real k (i + length es) old (IStream t e' false) in Ok (es ++ es', st).
Proof.
  intros Hs. induction 1 as [|b1 w1 b2 w2 b3 w3 ri ci v es s Hb1 Hb2 Hb3 Hn2 Hn3 H1 H2 H3 Hi1 Hi2 Hse H IH]; intros i old e He Ee.
  - exists e. split; [auto|]. split; [congruence|]. cbn [length Nat.add app]. rewrite Nat.add_0_r.
    destruct (read_entries scan_real k i old (IStream t e false)) as [[es' st]| | |]; reflexivity.
  - subst e. cbn [length Nat.add]. rewrite (read_entry real_text scan_real Hs _ _ _ _ _ _ _ _ _ ri ci v) by auto.
    destruct (String.eqb_spec s "") as [-> |Hne].
    + exists true. split; [discriminate|]. inversion H as [E|]; [|exfalso].
      * split; [auto|]. cbn [length Nat.add app]. 
        destruct (read_entries scan_real k (i + 1) old (IStream "" true false)) as [[es' st]| | |]; reflexivity.
      * match goal with K : (_ ++ _)%string = ""%string |- _ => apply app_empty in K as [-> K]; apply app_empty in K as [-> _] end.
        match goal with K : int_text "" _ |- _ => destruct (int_first _ _ K) as (c & w & ? & _); discriminate end.
    + destruct (IH (i + 1) old false eq_refl eq_refl) as (e' & _ & He' & ->). exists e'. split; [discriminate|]. split; [exact He'|].
      replace (i + S (length es)) with (i + 1 + length es) by lia.
      destruct (read_entries scan_real k (i + 1 + length es) old (IStream t e' false)) as [[es' st]| | |]; reflexivity.
Qed.
Lemma get_real_end {F} {O : SOps F} scan_real s e (x : F) : s = ""%string \/ e = false -> blank_text s -> (get_real scan_real (IStream s e false) x).1 = x.
Proof.
  intros H Hs. unfold get_real, good. cbn [eofbit failbit buf].
  assert (skipws s = ""%string) as E by (rewrite <- (str_app_nil s), skipws_blank by exact Hs; reflexivity). rewrite E.
  destruct e; [destruct H as [-> |]; [reflexivity|discriminate]|reflexivity].
Qed.
Theorem C72_missing_value_refuted :
  forall (F : Type) (O : SOps F) real_text scan_real (old : list F) header cs size nr nc extra body b1 w1 b2 w2 b3 ri ci rest fuel,
  understands real_text scan_real -> coordinate_header header -> Forall comment cs ->
  blank_text b1 -> blank_text b2 -> b2 <> ""%string -> blank_text b3 -> int_text w1 ri -> int_text w2 ci -> is_int ri -> is_int ci ->
  sizes_line size (nr :: nc :: Z.of_nat (length body + 1) :: extra) -> body_cut real_text (b1 ++ w1 ++ b2 ++ w2 ++ b3) body rest -> length cs < fuel ->
  read_text scan_real fuel old (Some (file_text header cs size rest)) =
  Ok (header, nr :: nc :: Z.of_nat (length body + 1) :: extra, body ++ [(ri, ci, default s0 (old !! length body))]).
Proof.
  intros F O real_text scan_real old header cs size nr nc extra body b1 w1 b2 w2 b3 ri ci rest fuel Hs Hh Hcs Hb1 Hb2 Hn2 Hb3 H1 H2 Hi1 Hi2 Hsz Hb Hf. unfold file_text.
  destruct (read_text_start scan_real header (lines cs ++ size ++ String "010" rest) Hh fuel old) as (d & Hd & ->).
  rewrite (sizes_text_ok cs size rest d _ fuel Hcs Hsz Hf) by (rewrite Hd; simpl; lia). cbn [bind get lookup list_lookup].
  destruct (Z.ltb_spec (Z.of_nat (length body + 1)) 0); [lia|]. rewrite Nat2Z.id.
  destruct (int_first _ _ H1) as (c & w' & Ew & _).
  assert (String.eqb rest "" = false) as Hne.
  { inversion Hb; subst; apply not_empty; [eauto|]. match goal with K : int_text ?w _ |- exists c w', ?w = _ => destruct (int_first _ _ K) as (? & ? & ? & _); eauto end. }
  destruct (read_cut real_text scan_real _ _ _ 1 Hs Hb 0 old false Hne eq_refl) as (e' & _ & He' & ->).
  assert (e' = false) as ->.
  { destruct e'; [|reflexivity]. specialize (He' eq_refl). apply app_empty in He' as [_ K]. apply app_empty in K as [K _]. rewrite Ew in K. discriminate. }
  cbn [read_entries].
  rewrite (get_int_text _ _ ri) by (auto using end_blank). rewrite app_not_empty by exact Hn2.
  rewrite (get_int_text _ _ ci); [|auto..|destruct b3 as [|ch b3]; [left; reflexivity|right; exists ch, b3; split; [reflexivity|apply Hb3; left]]].
  pose proof (get_real_end scan_real b3 (String.eqb b3 "") (default s0 (old !! (0 + length body))) ltac:(destruct b3; auto) Hb3) as Hx.
  destruct (get_real scan_real _ _) as [v st]. cbn in Hx. subst v. reflexivity.
Qed.
(** The column of the last entry is larger than any [int]: the largest [int] is stored instead and the value is that of an earlier matrix
    (or zero), without an error *)
Theorem C72_large_index_refuted :
  forall (F : Type) (O : SOps F) real_text scan_real (old : list F) header cs size nr nc extra body b1 w1 b2 w2 b3 ri ci rest fuel,
  understands real_text scan_real -> coordinate_header header -> Forall comment cs ->
  blank_text b1 -> blank_text b2 -> b2 <> ""%string -> word_end b3 -> int_text w1 ri -> int_text w2 ci -> is_int ri -> (2147483647 < ci)%Z ->
  sizes_line size (nr :: nc :: Z.of_nat (length body + 1) :: extra) -> body_cut real_text (b1 ++ w1 ++ b2 ++ w2 ++ b3) body rest -> length cs < fuel ->
  read_text scan_real fuel old (Some (file_text header cs size rest)) =
  Ok (header, nr :: nc :: Z.of_nat (length body + 1) :: extra, body ++ [(ri, 2147483647%Z, default s0 (old !! length body))]).
Proof.
  intros F O real_text scan_real old header cs size nr nc extra body b1 w1 b2 w2 b3 ri ci rest fuel Hs Hh Hcs Hb1 Hb2 Hn2 Hb3 H1 H2 Hi1 Hi2 Hsz Hb Hf. unfold file_text.
  destruct (read_text_start scan_real header (lines cs ++ size ++ String "010" rest) Hh fuel old) as (d & Hd & ->).
  rewrite (sizes_text_ok cs size rest d _ fuel Hcs Hsz Hf) by (rewrite Hd; simpl; lia). cbn [bind get lookup list_lookup].
  destruct (Z.ltb_spec (Z.of_nat (length body + 1)) 0); [lia|]. rewrite Nat2Z.id.
  destruct (int_first _ _ H1) as (c & w' & Ew & _).
  assert (String.eqb rest "" = false) as Hne.
  { inversion Hb; subst; apply not_empty; [eauto|]. match goal with K : int_text ?w _ |- exists c w', ?w = _ => destruct (int_first _ _ K) as (? & ? & ? & _); eauto end. }
  destruct (read_cut real_text scan_real _ _ _ 1 Hs Hb 0 old false Hne eq_refl) as (e' & _ & He' & ->).
  assert (e' = false) as ->.
  { destruct e'; [|reflexivity]. specialize (He' eq_refl). apply app_empty in He' as [_ K]. apply app_empty in K as [K _]. rewrite Ew in K. discriminate. }
  cbn [read_entries].
  rewrite (get_int_text _ _ ri) by (auto using end_blank). rewrite app_not_empty by exact Hn2.
  assert (get_int (IStream (b2 ++ w2 ++ b3) false false) = (Some 2147483647%Z, IStream b3 (String.eqb b3 "") true)) as ->.
  { unfold get_int. cbn [good eofbit failbit negb andb buf]. rewrite skipws_blank by exact Hb2.
    pose proof (scan_int_text _ _ _ H2 Hb3) as E. destruct (int_first _ _ H2) as (c2 & w2' & -> & Hc). rewrite skipws_word by exact Hc.
    cbn [append] in *. rewrite E. unfold fits_int, int_min, int_max. rewrite (proj2 (Z.leb_gt ci 2147483647)) by lia. rewrite andb_false_r.
    rewrite (proj2 (Z.ltb_ge ci 0)) by lia. reflexivity. }
  unfold get_real, good. cbn [eofbit failbit negb]. rewrite andb_false_r. reflexivity.
Qed.
(** Fewer entries than announced: undefined behaviour (indices which were never set) *)
Theorem C72_short_file_refuted :
  forall (F : Type) (O : SOps F) real_text scan_real (old : list F) header cs size nr nc nnz extra body tail rest fuel,
  understands real_text scan_real -> coordinate_header header -> Forall comment cs -> blank_text tail ->
  sizes_line size (nr :: nc :: nnz :: extra) -> body_cut real_text tail body rest -> (Z.of_nat (length body) < nnz)%Z -> length cs < fuel ->
  read_text scan_real fuel old (Some (file_text header cs size rest)) = UB.
Proof.
  intros F O real_text scan_real old header cs size nr nc nnz extra body tail rest fuel Hs Hh Hcs Ht Hsz Hb Hl Hf. unfold file_text.
  destruct (read_text_start scan_real header (lines cs ++ size ++ String "010" rest) Hh fuel old) as (d & Hd & ->).
  rewrite (sizes_text_ok cs size rest d _ fuel Hcs Hsz Hf) by (rewrite Hd; simpl; lia). cbn [bind get lookup list_lookup].
  destruct (Z.ltb_spec nnz 0); [lia|]. 
  assert (forall k i e, tail = ""%string \/ e = false -> read_entries scan_real (S k) i old (IStream tail e false) = UB) as Hend.
  { intros k i e He. cbn [read_entries]. rewrite get_int_end by auto. destruct (get_int (IStream "" true true)) as [ci st]. destruct (get_real scan_real st _) as [v st']. reflexivity. }
  replace (Z.to_nat nnz) with (length body + S (Z.to_nat nnz - length body - 1)) by lia.
  destruct (String.eqb_spec rest "") as [-> |Hne].
  - inversion Hb as [E|].
    + subst. cbn [length Nat.add]. rewrite Hend by auto. reflexivity.
    + exfalso. match goal with K : (_ ++ _)%string = ""%string |- _ => apply app_empty in K as [-> K]; apply app_empty in K as [-> _] end.
      match goal with K : int_text "" _ |- _ => destruct (int_first _ _ K) as (c & w & ? & _); discriminate end.
  - destruct (read_cut real_text scan_real _ _ _ (S (Z.to_nat nnz - length body - 1)) Hs Hb 0 old false ltac:(apply String.eqb_neq; exact Hne) eq_refl) as (e' & _ & He' & ->).
    rewrite Hend; [reflexivity|]. destruct e'; auto.
Qed.
(** Complex files are accepted, but four numbers belong to each entry and three are read: the second entry read has the imaginary part of the
    first entry as its row and the row of the second as its column *)
Theorem C72_complex_refuted :
  forall (F : Type) (O : SOps F) real_text scan_real (old : list F) header cs size nr nc extra w1 w2 wre wim w3 w4 tail r1 c1 re im r2 c2 c2' fuel,
  understands real_text scan_real -> no_newline header -> getMMDescription header = Ok (MMDesc COORDINATE COMPLEX GENERAL) -> Forall comment cs ->
  sizes_line size (nr :: nc :: 2%Z :: extra) ->
  int_text w1 r1 -> int_text w2 c1 -> real_text wre re -> int_text wim im -> int_text w3 r2 -> int_text w4 c2 -> real_text w4 c2' ->
  is_int r1 -> is_int c1 -> is_int im -> is_int r2 -> length cs < fuel ->
  read_text scan_real fuel old (Some (file_text header cs size (w1 ++ " " ++ w2 ++ " " ++ wre ++ " " ++ wim ++ " " ++ w3 ++ " " ++ w4 ++ " " ++ tail))) =
  Ok (header, nr :: nc :: 2%Z :: extra, [(r1, c1, re); (im, r2, c2')]).
Proof.
  intros F O real_text scan_real old header cs size nr nc extra w1 w2 wre wim w3 w4 tail r1 c1 re im r2 c2 c2' fuel Hs Hn Hh Hcs Hsz H1 H2 H3 H4 H5 _ H6 I1 I2 I3 I4 Hf.
  assert (blank_text " ") as Hb by (intros c Hc; apply elem_of_list_singleton in Hc as ->; left).
  assert (forall s, word_end (" " ++ s)) as He by (intros s; right; eexists _, s; split; [reflexivity|left]).
  apply (C72_numbers F O real_text scan_real old header cs size nr nc extra [(r1, c1, re); (im, r2, c2')]); auto.
  - split; [exact Hn|]. eexists. split; [exact Hh|]. split; [reflexivity|]. split; [discriminate|reflexivity].
  - apply (bt_entry _ "" w1 " " w2 " " wre r1 c1 re); auto; try discriminate; [intros c Hc; apply elem_of_nil in Hc as []|].
    apply (bt_entry _ " " wim " " w3 " " w4 im r2 c2'); auto; try discriminate. apply bt_end.
Qed.

(** ** Cases *)
(** every number can be written, so every list of entries can *)
Lemma decimal_exists n : (0 <= n)%Z -> exists w, decimal w n.
Proof.
  intros Hn. rewrite <- (Z2Nat.id n) by exact Hn. clear Hn. induction (Z.to_nat n) as [m IH] using lt_wf_ind.
  assert (forall d, d < 10 -> exists c, String.get d "0123456789" = Some c) as Hd.
  { intros d H. do 10 (destruct d as [|d]; [eexists; reflexivity|]). lia. }
  destruct (decide (m < 10)) as [H|H].
  - destruct (Hd m H) as (c & Hc). exists (String c ""). apply dec_one, Hc.
  - destruct (IH (m / 10) ltac:(apply Nat.div_lt; lia)) as (w & Hw). destruct (Hd (m mod 10) ltac:(apply Nat.mod_upper_bound; lia)) as (c & Hc).
    exists (w ++ String c "")%string. replace (Z.of_nat m) with (10 * Z.of_nat (m / 10) + Z.of_nat (m mod 10))%Z by (pose proof (Nat.div_mod m 10); lia).
    apply dec_more; auto.
Qed.
Lemma int_text_exists n : exists w, int_text w n.
Proof.
  destruct (decide (0 <= n)%Z) as [H|H].
  - destruct (decimal_exists n H) as (w & Hw). exists w. apply it_plain, Hw.
  - destruct (decimal_exists (- n) ltac:(lia)) as (w & Hw). exists (String "-" w). replace n with (- - n)%Z by lia. apply it_minus, Hw.
Qed.
Example C72_bodies : forall (F : Type) (real_text : string -> F -> Prop) (body : list (Z * Z * F)),
  (forall ri ci v, (ri, ci, v) ∈ body -> is_int ri /\ is_int ci /\ exists w, real_text w v) ->
  exists s, word_end s /\ body_text real_text body s.
Proof.
  intros F real_text body. induction body as [|[[ri ci] v] body IH]; intros H; [exists ""%string; split; [left; reflexivity|apply bt_end]|].
  destruct IH as (s & Hs & Hb); [intros r c x Hx; apply H; right; exact Hx|]. destruct (H ri ci v ltac:(left)) as (H1 & H2 & w & Hw).
  destruct (int_text_exists ri) as (w1 & Hw1), (int_text_exists ci) as (w2 & Hw2).
  assert (blank_text " ") as Hbl by (intros c Hc; apply elem_of_list_singleton in Hc as ->; left).
  exists (String "010" "" ++ w1 ++ " " ++ w2 ++ " " ++ w ++ s)%string. split; [right; eexists _, _; split; [reflexivity|right; right; left]|].
  apply bt_entry; auto; try discriminate. intros c Hc. apply elem_of_list_singleton in Hc as ->. right. right. left.
Qed.
(** a conversion for numbers written without a point *)
Definition scan_whole (s : string) : Qc * bool * string := match scan_int s with Some (n, r) => (q n, true, r) | None => (q 0, false, s) end.
Definition whole_text (w : string) (v : Qc) : Prop := exists n, int_text w n /\ v = q n.
Example C72_scan_case : understands whole_text scan_whole.
Proof.
  intros w v (n & Hw & ->). split; [exact (int_first _ _ Hw)|]. intros s Hs. unfold scan_whole. rewrite (scan_int_text _ _ _ Hw Hs). reflexivity.
Qed.
Definition exText : string := (lines ["%%MatrixMarket matrix coordinate real general"; "% comment"; " 3 +3  5"; "3 1 8"; "1 3 5  2"; ""; "2"; "6 1 1 7 3 3 -9"])%string.
Example C72_case :
  coordinate_header "%%MatrixMarket matrix coordinate real general" /\ Forall comment ["% comment"%string] /\ sizes_line " 3 +3  5" [3; 3; 5]%Z /\
  exText = file_text "%%MatrixMarket matrix coordinate real general" ["% comment"%string] " 3 +3  5"
    (lines ["3 1 8"; "1 3 5  2"; ""; "2"; "6 1 1 7 3 3 -9"]%string) /\
  read_text scan_whole 2 [] (Some exText) = Ok ("%%MatrixMarket matrix coordinate real general"%string, [3; 3; 5]%Z,
    [(3, 1, q 8); (1, 3, q 5); (2, 2, q 6); (1, 1, q 7); (3, 3, q (-9))]%Z).
Proof.
  assert (forall s, bool_decide ("010"%char ∉ list_ascii_of_string s) = true -> no_newline s) as Hn by (intros s H; apply bool_decide_eq_true in H; exact H).
  split; [|split; [|split; [|split; [reflexivity|vm_compute; reflexivity]]]].
  - split; [apply Hn; reflexivity|]. eexists. split; [reflexivity|]. split; [reflexivity|]. split; [discriminate|reflexivity].
  - constructor; [|constructor]. split; [apply Hn; reflexivity|reflexivity].
  - split; [apply Hn; reflexivity|]. split; [discriminate|]. split.
    + intros n H. rewrite !elem_of_cons, elem_of_nil in H. destruct H as [-> |[-> |[-> |[]]]]; split; lia.
    + exists ["3"; "+3"; "5"]%string. split; [apply C07_words; reflexivity|]. constructor; [|constructor; [|constructor; [|constructor]]].
      * apply it_plain, (dec_one 3). reflexivity.
      * apply it_plus, (dec_one 3). reflexivity.
      * apply it_plain, (dec_one 5). reflexivity.
Qed.
(** the other shapes of files *)
Example C72_wrong_files :
  (forall fuel, read_text scan_whole fuel [] (Some (lines ["%%MatrixMarket matrix coordinate real general"%string] ++ "% 1 1 1")%string) = Fuel) /\
  read_text scan_whole 9 [] (Some (lines ["%%MatrixMarket matrix coordinate real general"; ""; "1 1 1"; "1 1 4"]%string)) = Throw "abort" /\
  read_text scan_whole 9 [] (Some (lines ["%%MatrixMarket matrix coordinate real general"; "1 1 1"; "1 1"]%string)) = Ok ("%%MatrixMarket matrix coordinate real general"%string, [1; 1; 1]%Z, [(1, 1, q 0)]%Z) /\
  read_text scan_whole 9 [q 7] (Some (lines ["%%MatrixMarket matrix coordinate real general"; "1 1 1"; "1 1"]%string)) = Ok ("%%MatrixMarket matrix coordinate real general"%string, [1; 1; 1]%Z, [(1, 1, q 7)]%Z) /\
  read_text scan_whole 9 [] (Some (lines ["%%MatrixMarket matrix coordinate real general"; "1 1 1"; "1 4294967297 5"]%string)) = Ok ("%%MatrixMarket matrix coordinate real general"%string, [1; 1; 1]%Z, [(1, 2147483647, q 0)]%Z) /\
  read_text scan_whole 9 [] (Some (lines ["%%MatrixMarket matrix coordinate real general"; "2 2 2"; "1 1 3"]%string)) = UB /\
  readDense_text scan_whole 9 (Some (lines ["%%MatrixMarket matrix array real general"; "2 1"; "4 "; "5"]%string)) = Ok [q 4; q 5].
Proof.
  split; [|repeat split; vm_compute; reflexivity]. intros fuel.
  destruct C72_case as (Hh & _). refine (proj1 (C72_unfinished_file_refuted Qc _ scan_whole [] _ [] "% 1 1 1" Hh (List.Forall_nil _) _ fuel)).
  split; [|reflexivity]. apply (bool_decide_unpack _). vm_compute. exact Logic.I.
Qed.

Print Assumptions C07_blanks.
Print Assumptions C72_numbers.
Print Assumptions C72_matrix.
Print Assumptions C72_dense.
Print Assumptions C72_unfinished_file_refuted.
Print Assumptions C72_bound_suffices.
Print Assumptions C72_blank_line_refuted.
Print Assumptions C72_missing_value_refuted.
Print Assumptions C72_large_index_refuted.
Print Assumptions C72_short_file_refuted.
Print Assumptions C72_complex_refuted.
