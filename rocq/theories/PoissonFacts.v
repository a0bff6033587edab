(** * PoissonFacts: the assembled matrix is the finite-difference matrix *)
From Coq Require Import ZArith.
From Verif Require Import Base Alg SymSpec Poisson PoissonSpec.

(** ** Loops that append *)
Lemma for_n_app {A} n (body : nat -> list A -> res (list A)) g : forall lo acc,
  (forall i a, lo <= i < lo + n -> body i a = Ok (a ++ g i)) -> for_n n lo body acc = Ok (acc ++ (seq lo n ≫= g)).
Proof.
  induction n as [|n IH]; intros lo acc H; simpl.
  - rewrite app_nil_r. reflexivity.
  - rewrite H by lia. simpl. rewrite IH by (intros; apply H; lia). rewrite app_assoc. replace (lo + 1) with (S lo) by lia. reflexivity.
Qed.
Lemma for_app {A} lo n (body : nat -> list A -> res (list A)) g acc :
  (forall i a, lo <= i < lo + n -> body i a = Ok (a ++ g i)) -> for_ lo (lo + n) body acc = Ok (acc ++ (seq lo n ≫= g)).
Proof. intros H. unfold for_. replace (lo + n - lo) with n by lia. apply for_n_app, H. Qed.
Lemma bind_bind {A B C} (f : A -> list B) (g : B -> list C) l : (l ≫= f) ≫= g = l ≫= (fun a => f a ≫= g).
Proof. induction l as [|a l IH]; [reflexivity|]. rewrite !bind_cons, bind_app, IH. reflexivity. Qed.
Lemma bind_ext {A B} (f g : A -> list B) l : (forall a, f a = g a) -> l ≫= f = l ≫= g.
Proof. intros H. induction l as [|a l IH]; [reflexivity|]. rewrite !bind_cons, H, IH. reflexivity. Qed.
Lemma NoDup_flat {A B} (f : A -> list B) l : NoDup l -> (forall x, x ∈ l -> NoDup (f x)) ->
  (forall x y b, x ∈ l -> y ∈ l -> b ∈ f x -> b ∈ f y -> x = y) -> NoDup (l ≫= f).
Proof.
  induction 1 as [|a l Ha Hl IH]; intros H1 H2; [constructor|]. rewrite bind_cons.
  apply NoDup_app. repeat split.
  - apply H1. left.
  - intros b Hb (y & Hy & Hyl)%elem_of_list_bind. assert (a = y) as <- by (apply (H2 a y b); [left|right; done|done|done]). done.
  - apply IH; [intros; apply H1; right; done|]. intros x y b Hx Hy. apply H2; right; done.
Qed.

(** ** The points of a box *)
Definition pts (b : box) : list pnt :=
  seq (bz b) (nz b) ≫= (fun k => seq (by_ b) (ny b) ≫= (fun j => seq (bx b) (nx b) ≫= (fun i => [(Z.of_nat k, Z.of_nat j, Z.of_nat i)]))).
Lemma elem_of_pts b p : p ∈ pts b <-> in_box b p.
Proof.
  destruct p as [[k j] i]. unfold pts, in_box. split.
  - intros (k' & (j' & (i' & Hi & H1)%elem_of_list_bind & H2)%elem_of_list_bind & H3)%elem_of_list_bind.
    apply elem_of_seq in H1, H2, H3. apply elem_of_list_singleton in Hi. injection Hi as -> -> ->. lia.
  - intros (H3 & H2 & H1). apply elem_of_list_bind. exists (Z.to_nat k). split; [|apply elem_of_seq; lia].
    apply elem_of_list_bind. exists (Z.to_nat j). split; [|apply elem_of_seq; lia].
    apply elem_of_list_bind. exists (Z.to_nat i). split; [|apply elem_of_seq; lia].
    apply elem_of_list_singleton. rewrite !Z2Nat.id by lia. reflexivity.
Qed.
Lemma NoDup_pts b : NoDup (pts b).
Proof.
  unfold pts. apply NoDup_flat; [apply NoDup_seq| |].
  - intros k _. apply NoDup_flat; [apply NoDup_seq| |].
    + intros j _. apply NoDup_flat; [apply NoDup_seq|intros; apply NoDup_singleton|].
      intros i i' p _ _ H1 H2. apply elem_of_list_singleton in H1, H2. subst p. injection H2 as H2. lia.
    + intros j j' p _ _ (i & H1 & _)%elem_of_list_bind (i' & H2 & _)%elem_of_list_bind. apply elem_of_list_singleton in H1, H2. subst p. injection H2 as H2. lia.
  - intros k k' p _ _ (j & (i & H1 & _)%elem_of_list_bind & _)%elem_of_list_bind (j' & (i' & H2 & _)%elem_of_list_bind & _)%elem_of_list_bind.
    apply elem_of_list_singleton in H1, H2. subst p. injection H2 as H2. lia.
Qed.
Lemma for_box_app {A} b (body : nat -> nat -> nat -> list A -> res (list A)) (g : pnt -> list A) :
  (forall k j i a, in_box b (Z.of_nat k, Z.of_nat j, Z.of_nat i) -> body k j i a = Ok (a ++ g (Z.of_nat k, Z.of_nat j, Z.of_nat i))) ->
  for_box b body [] = Ok (pts b ≫= g).
Proof.
  intros H. unfold for_box.
  rewrite (for_app _ _ _ (fun k => seq (by_ b) (ny b) ≫= (fun j => seq (bx b) (nx b) ≫= (fun i => g (Z.of_nat k, Z.of_nat j, Z.of_nat i))))).
  - simpl. f_equal. unfold pts. rewrite bind_bind. apply bind_ext. intros k. rewrite bind_bind. apply bind_ext. intros j. rewrite bind_bind.
    apply bind_ext. intros i. cbn. rewrite app_nil_r. reflexivity.
  - intros k a Hk. rewrite (for_app _ _ _ (fun j => seq (bx b) (nx b) ≫= (fun i => g (Z.of_nat k, Z.of_nat j, Z.of_nat i)))); [reflexivity|].
    intros j a' Hj. rewrite (for_app _ _ _ (fun i => g (Z.of_nat k, Z.of_nat j, Z.of_nat i))); [reflexivity|].
    intros i a'' Hi. apply H. unfold in_box. lia.
Qed.

Section Facts.
  Context {F : Type} {O : SOps F} {FL : Field F}.
  Add Ring Fr : (@cring F O field_ring).
  Open Scope s_scope.

  Lemma gcoords_ok (x : list F) i : (0 <= i < Z.of_nat (length x))%Z -> gcoords x i = Ok (vat x (Z.to_nat i)).
  Proof.
    intros H. unfold gcoords. destruct (Z.ltb_spec i 0); [lia|]. unfold get. rewrite (vat_Some x) by lia. reflexivity.
  Qed.
  Lemma gcoords_cases (x : list F) i : gcoords x i = UB \/ exists a, gcoords x i = Ok a.
  Proof. unfold gcoords, get. destruct (i <? 0)%Z; [left; reflexivity|]. destruct (x !! Z.to_nat i); [right; eauto|left; reflexivity]. Qed.
  Lemma gcoords_neg (x : list F) i : (i < 0)%Z -> gcoords x i = UB.
  Proof. intros H. unfold gcoords. destruct (Z.ltb_spec i 0); [reflexivity|lia]. Qed.

  Definition lowv (x : list F) i := sopp s1 / ((place x i - place x (i - 1)) * half * (place x (i + 1) - place x (i - 1))).
  Definition upv (x : list F) i := sopp s1 / ((place x (i + 1) - place x i) * half * (place x (i + 1) - place x (i - 1))).
  Definition midv (x : list F) i := two / (place x (i + 1) - place x (i - 1)) * (s1 / (place x (i + 1) - place x i) + s1 / (place x i - place x (i - 1))).
  Definition row (m : mesh F) (p : pnt) : list (pnt * pnt * F) :=
    match p with (k, j, i) =>
      [(p, (k - 1, j, i)%Z, lowv (cz m) k); (p, (k, j - 1, i)%Z, lowv (cy m) j); (p, (k, j, i - 1)%Z, lowv (cx m) i);
       (p, p, midv (cx m) i + midv (cy m) j + midv (cz m) k);
       (p, (k, j, i + 1)%Z, upv (cx m) i); (p, (k, j + 1, i)%Z, upv (cy m) j); (p, (k + 1, j, i)%Z, upv (cz m) k)] end.

  Lemma lower_ok (x : list F) i : on_axis x i -> lower_value x (i + 1) = Ok (lowv x i).
  Proof. intros [H1 H2]. unfold lower_value, lowv, place. rewrite !gcoords_ok by lia. simpl. replace (i - 1 + 1)%Z with (i + 1 - 1)%Z by lia. reflexivity. Qed.
  Lemma upper_ok (x : list F) i : on_axis x i -> upper_value x (i + 1) = Ok (upv x i).
  Proof. intros [H1 H2]. unfold upper_value, upv, place. rewrite !gcoords_ok by lia. simpl. replace (i - 1 + 1)%Z with (i + 1 - 1)%Z by lia. reflexivity. Qed.
  Lemma middle_ok (x : list F) i : on_axis x i -> middle_value x (i + 1) = Ok (midv x i).
  Proof. intros [H1 H2]. unfold middle_value, midv, place. rewrite !gcoords_ok by lia. simpl. replace (i - 1 + 1)%Z with (i + 1 - 1)%Z by lia. reflexivity. Qed.
  Lemma lhs_row_ok (m : mesh F) k j i : grid m (Z.of_nat k, Z.of_nat j, Z.of_nat i) -> lhs_row m k j i = Ok (row m (Z.of_nat k, Z.of_nat j, Z.of_nat i)).
  Proof. intros (Hk & Hj & Hi). unfold lhs_row. cbv zeta. rewrite !lower_ok, !middle_ok, !upper_ok by assumption. reflexivity. Qed.
  Lemma computeLHS_ok (m : mesh F) b : box_fits m b -> computeLHS m b = Ok (pts b ≫= row m).
  Proof. intros H. unfold computeLHS. apply for_box_app. intros k j i a Hb. rewrite lhs_row_ok by (apply H, Hb). reflexivity. Qed.

  (** ** All processes together *)
  Lemma all_ok (m : mesh F) bs : (forall b, b ∈ bs -> box_fits m b) -> mapr (computeLHS m) bs = Ok ((fun b => pts b ≫= row m) <$> bs).
  Proof.
    induction bs as [|b bs IH]; intros H; simpl; [reflexivity|]. rewrite computeLHS_ok by (apply H; left). simpl.
    rewrite IH by (intros; apply H; right; done). reflexivity.
  Qed.
  Lemma concat_rows (m : mesh F) bs : concat ((fun b => pts b ≫= row m) <$> bs) = (bs ≫= pts) ≫= row m.
  Proof. induction bs as [|b bs IH]; [reflexivity|]. rewrite fmap_cons, bind_cons, bind_app, <- IH. reflexivity. Qed.
  Lemma partition_pts (m : mesh F) bs : partition m bs -> NoDup (bs ≫= pts) /\ forall p, p ∈ bs ≫= pts <-> grid m p.
  Proof.
    intros (Hf & Hc & Hd). split.
    - clear Hf Hc. revert Hd. induction bs as [|b bs IH]; intros Hd; [constructor|]. rewrite bind_cons. apply NoDup_app. repeat split; [apply NoDup_pts| |].
      + intros p Hp (b' & Hb' & (n & Hn)%elem_of_list_lookup)%elem_of_list_bind. apply elem_of_pts in Hp, Hb'.
        pose proof (Hd p 0%nat (S n) b b' eq_refl Hn Hp Hb'). discriminate.
      + apply IH. intros p n n' b1 b2 H1 H2 P1 P2. pose proof (Hd p (S n) (S n') b1 b2 H1 H2 P1 P2). lia.
    - intros p. split.
      + intros (b & Hb & Hbs)%elem_of_list_bind. apply (Hf b Hbs), elem_of_pts, Hb.
      + intros Hp. destruct (Hc p Hp) as (n & b & Hn & Hb). apply elem_of_list_bind. exists b. split; [apply elem_of_pts, Hb|]. apply elem_of_list_lookup. eauto.
  Qed.
  Lemma row_row (m : mesh F) p r c v : (r, c, v) ∈ row m p -> r = p.
  Proof.
    destruct p as [[k j] i]. unfold row. intros H. repeat (apply elem_of_cons in H; destruct H as [H|H]; [injection H; intros; subst; reflexivity|]).
    apply elem_of_nil in H. destruct H.
  Qed.
  Lemma lsum_bind {A B} (f : B -> F) (g : A -> list B) l : lsum f (l ≫= g) = lsum (fun a => lsum f (g a)) l.
  Proof. induction l as [|a l IH]; [reflexivity|]. rewrite bind_cons. change (lsum f (g a ++ (l ≫= g)) = lsum f (g a) + lsum (fun a => lsum f (g a)) l). rewrite lsum_app, IH. reflexivity. Qed.
  Lemma lsum_single {A} (f : A -> F) l p : NoDup l -> p ∈ l -> (forall a, a ∈ l -> a <> p -> f a = s0) -> lsum f l = f p.
  Proof.
    intros Hn Hp H. induction Hn as [|a l Ha Hn IH]; [apply elem_of_nil in Hp; destruct Hp|]. cbn. change (f a + lsum f l = f p).
    apply elem_of_cons in Hp. destruct Hp as [-> |Hp].
    - rewrite lsum_zero; [ring|]. intros b Hb. apply H; [right; done|]. intros ->. done.
    - rewrite IH; [|exact Hp|intros b Hb; apply H; right; exact Hb]. rewrite (H a); [ring|left|]. intros ->. exact (Ha Hp).
  Qed.
  Definition row_sum (m : mesh F) (u : pnt -> F) (p : pnt) : F :=
    match p with (k, j, i) =>
      lowv (cz m) k * u (k - 1, j, i)%Z + lowv (cy m) j * u (k, j - 1, i)%Z + lowv (cx m) i * u (k, j, i - 1)%Z
      + (midv (cx m) i + midv (cy m) j + midv (cz m) k) * u p
      + upv (cx m) i * u (k, j, i + 1)%Z + upv (cy m) j * u (k, j + 1, i)%Z + upv (cz m) k * u (k + 1, j, i)%Z end.
  Lemma rows_apply (m : mesh F) P u p : NoDup P -> p ∈ P -> row_apply (P ≫= row m) u p = row_sum m u p.
  Proof.
    intros Hn Hp. unfold row_apply. rewrite lsum_bind, (lsum_single _ _ p Hn Hp).
    - destruct p as [[k j] i]. unfold row, row_sum, lsum. cbn [foldr]. rewrite !decide_True by reflexivity. ring.
    - intros q Hq Hqp. apply lsum_zero. intros [[r c] v] He. apply row_row in He. subst r. rewrite decide_False by done. reflexivity.
  Qed.
  Lemma rows_NoDup (m : mesh F) P : NoDup P -> NoDup (fst <$> (P ≫= row m)).
  Proof.
    intros Hn. assert (fst <$> (P ≫= row m) = P ≫= (fun p => fst <$> row m p)) as ->.
    { clear. induction P as [|p P IH]; [reflexivity|]. rewrite !bind_cons, fmap_app, IH. reflexivity. }
    apply NoDup_flat; [done| |].
    - intros [[k j] i] _. unfold row. cbn. repeat (apply NoDup_cons; split; [intros H; repeat (apply elem_of_cons in H; destruct H as [H|H]; [injection H; intros; lia|]); apply elem_of_nil in H; destruct H|]).
      constructor.
    - intros p q e _ _ ([[r c] v] & -> & H1)%elem_of_list_fmap ([[r' c'] v'] & E & H2)%elem_of_list_fmap. apply row_row in H1, H2. cbn in E. congruence.
  Qed.

  (** ** Arithmetic *)
  Section Ord.
    Variable pos : F -> Prop.
    Hypothesis Hpos : ordered pos.
    Lemma p_ne a : pos a -> a <> s0.
    Proof. intros H ->. exact (pos_zero _ Hpos H). Qed.
    Lemma p_one : pos s1.
    Proof.
      destruct (pos_total _ Hpos s1) as [H|[H|H]]; [destruct (field_10 H)|exact H|].
      replace s1 with (sopp s1 * sopp s1) by ring. apply (pos_mul _ Hpos); exact H.
    Qed.
    Lemma p_two : pos (two : F).
    Proof. apply (pos_add _ Hpos); apply p_one. Qed.
    Lemma div_inv (x y : F) : y <> s0 -> x / y = x * (s1 / y).
    Proof.
      intros H. transitivity (x / y * ((s1 / y) * y)); [rewrite (field_div s1 y H); ring|].
      replace (x / y * (s1 / y * y)) with (x / y * y * (s1 / y)) by ring. rewrite (field_div x y H). reflexivity.
    Qed.
    Lemma inv_r (y : F) : y <> s0 -> y * (s1 / y) = s1.
    Proof. intros H. replace (y * (s1 / y)) with (s1 / y * y) by ring. apply field_div, H. Qed.
    Lemma inv_unique (y z : F) : y <> s0 -> y * z = s1 -> s1 / y = z.
    Proof. intros H E. transitivity (s1 / y * (y * z)); [rewrite E; ring|]. replace (s1 / y * (y * z)) with (y * (s1 / y) * z) by ring. rewrite inv_r by done. ring. Qed.
    Lemma p_inv a : pos a -> pos (s1 / a).
    Proof.
      intros H. pose proof (inv_r a (p_ne a H)) as E. destruct (pos_total _ Hpos (s1 / a)) as [Z|[Z|Z]]; [|exact Z|].
      - rewrite Z in E. destruct (field_10 (F := F)). rewrite <- E. ring.
      - exfalso. pose proof (pos_mul _ Hpos _ _ H Z) as P. replace (a * sopp (s1 / a)) with (sopp (a * (s1 / a))) in P by ring. rewrite E in P.
        pose proof (pos_add _ Hpos _ _ P p_one) as Q. replace (sopp s1 + s1) with (s0 : F) in Q by ring. exact (pos_zero _ Hpos Q).
    Qed.
    Lemma p_half : pos (half : F).
    Proof. apply p_inv, p_two. Qed.
    Lemma inv_half : s1 / half = (two : F).
    Proof.
      apply inv_unique; [apply p_ne, p_half|]. unfold half, two. apply field_div. apply (p_ne two), p_two.
    Qed.
    (** weights of the three points *)
    Section Axis.
      Variables (x : list F) (i : Z).
      Let h1 := place x i - place x (i - 1).
      Let h2 := place x (i + 1) - place x i.
      Hypothesis H1 : pos h1.
      Hypothesis H2 : pos h2.
      Let H := h1 + h2.
      Lemma H_eq : place x (i + 1) - place x (i - 1) = H.
      Proof. unfold H, h1, h2. ring. Qed.
      Lemma p_H : pos H.
      Proof. apply (pos_add _ Hpos); assumption. Qed.
      Definition wlow := two * (s1 / h1) * (s1 / H).
      Definition wup := two * (s1 / h2) * (s1 / H).
      Lemma p_wlow : pos wlow.
      Proof. apply (pos_mul _ Hpos); [apply (pos_mul _ Hpos); [apply p_two|apply p_inv; done]|apply p_inv, p_H]. Qed.
      Lemma p_wup : pos wup.
      Proof. apply (pos_mul _ Hpos); [apply (pos_mul _ Hpos); [apply p_two|apply p_inv; done]|apply p_inv, p_H]. Qed.
      Lemma inv3 a : pos a -> sopp s1 / (a * half * H) = sopp (two * (s1 / a) * (s1 / H)).
      Proof.
        intros Ha. assert (pos (a * half * H)) as P by (apply (pos_mul _ Hpos); [apply (pos_mul _ Hpos); [done|apply p_half]|apply p_H]).
        rewrite div_inv by (apply p_ne, P). rewrite (inv_unique (a * half * H) (two * (s1 / a) * (s1 / H))); [ring|apply p_ne, P|].
        replace (a * half * H * (two * (s1 / a) * (s1 / H))) with ((a * (s1 / a)) * (H * (s1 / H)) * (half * two)) by ring.
        rewrite (inv_r a), (inv_r H) by (apply p_ne; first [assumption|apply p_H]). rewrite <- inv_half, (inv_r half) by (apply p_ne, p_half). ring.
      Qed.
      Lemma lowv_eq : lowv x i = sopp wlow.
      Proof. unfold lowv. rewrite H_eq. apply inv3, H1. Qed.
      Lemma upv_eq : upv x i = sopp wup.
      Proof. unfold upv. rewrite H_eq. apply inv3, H2. Qed.
      Lemma midv_eq : midv x i = wlow + wup.
      Proof. unfold midv. rewrite H_eq, div_inv by (apply p_ne, p_H). fold h1 h2. unfold wlow, wup. ring. Qed.
      Lemma diff_eq w c e : second_difference x i w c e = wup * (e - c) - wlow * (c - w).
      Proof.
        unfold second_difference. cbv zeta. fold h1 h2 H.
        assert (pos (H / (s1 + s1))) as P.
        { rewrite div_inv by (apply (p_ne two), p_two). apply (pos_mul _ Hpos); [apply p_H|]. apply p_inv, p_two. }
        rewrite div_inv by (apply p_ne, P). rewrite (inv_unique (H / (s1 + s1)) (two * (s1 / H))); [|apply p_ne, P|].
        - rewrite (div_inv (e - c) h2), (div_inv (c - w) h1) by (apply p_ne; assumption). unfold wup, wlow. ring.
        - rewrite div_inv by (apply (p_ne two), p_two). replace (H * (s1 / (s1 + s1)) * (two * (s1 / H))) with (H * (s1 / H) * (half * two)) by (unfold half; ring).
          rewrite (inv_r H) by (apply p_ne, p_H). unfold half, two. rewrite field_div by (apply (p_ne two), p_two). ring.
      Qed.
      (** exact for quadratic functions *)
      Lemma diff_quadratic (a b c : F) : let f t := a + b * t + c * t * t in
        second_difference x i (f (place x (i - 1))) (f (place x i)) (f (place x (i + 1))) = two * c.
      Proof.
        intros f. rewrite diff_eq. unfold f.
        replace (place x (i + 1)) with (place x i + h2) by (unfold h2; ring). replace (place x (i - 1)) with (place x i - h1) by (unfold h1; ring).
        generalize (place x i). intros t. unfold wup, wlow.
        transitivity (two * (s1 / H) * ((h2 * (s1 / h2)) * (b + c * (two * t + h2)) - (h1 * (s1 / h1)) * (b + c * (two * t - h1)))).
        { unfold two. ring. }
        rewrite (inv_r h1), (inv_r h2) by (apply p_ne; assumption). transitivity (two * c * (H * (s1 / H))); [unfold H; ring|]. rewrite inv_r by (apply p_ne, p_H). ring.
      Qed.
    End Axis.
  End Ord.
End Facts.
