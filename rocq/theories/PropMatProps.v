(** * C52, C53: diagonal dominance and the maximum norm *)
From Verif Require Import Base Alg SRMatrix Nd Reduction MatProps PropBlockMat Inst.
From Coq Require Import QArith.Qcanon ZArith Ring Ring_theory.
Open Scope nat_scope.

(** ** Specification *)
(** [m] is the least (greatest) of the numbers [l] *)
Definition least {F} (slt : F -> F -> bool) (l : list F) (m : F) : Prop := m ∈ l /\ forall x, x ∈ l -> slt x m = false.
Definition greatest {F} (slt : F -> F -> bool) (l : list F) (m : F) : Prop := m ∈ l /\ forall x, x ∈ l -> slt m x = false.
(** include/matrix_properties.hpp: the dominance of row [R] is (|d| - sum of the other magnitudes) / |d|; for the lower triangular factor,
    which has the entries left of the diagonal block and a unit diagonal, and for the upper one with the remaining entries *)
Section Spec.
  Context {F : Type} {O : SOps F} (sabs : F -> F) (so : storage) (bs : nat) (M : srmat F).
  Definition lower_dominance (R : nat) : F :=
    ((s1 - bsum (nbrows M * bs) (fun C => if decide (C / bs < R / bs) then sabs (bdense so bs M R C) else s0)) / s1)%s.
  Definition upper_dominance (R : nat) : F :=
    ((sabs (bdense so bs M R R) - bsum (nbrows M * bs) (fun C => if decide (R / bs <= C / bs /\ C <> R) then sabs (bdense so bs M R C) else s0))
     / sabs (bdense so bs M R R))%s.
End Spec.

Section Least.
  Context {F : Type} (slt : F -> F -> bool) (num : F -> Prop).
  Hypothesis Ho : order_on slt num.
  Lemma least_equiv l l' m : (forall x, x ∈ l <-> x ∈ l') -> least slt l m -> least slt l' m.
  Proof. intros H [H1 H2]. split; [apply H, H1|]. intros x Hx. apply H2, H, Hx. Qed.
  Lemma least_comb l1 l2 a b : (forall x, x ∈ l1 -> num x) -> (forall x, x ∈ l2 -> num x) -> least slt l1 a -> least slt l2 b ->
    least slt (l1 ++ l2) (if slt b a then b else a).
  Proof.
    intros N1 N2 [Ha La] [Hb Lb]. pose proof Ho as [Hirr Htr Htot]. destruct (slt b a) eqn:E.
    - split; [apply elem_of_app; right; exact Hb|]. intros x Hx. apply elem_of_app in Hx as [Hx|Hx]; [|apply Lb, Hx].
      destruct (slt x b) eqn:Ex; [|reflexivity]. specialize (La x Hx). rewrite (Htr x b a) in La; auto.
    - split; [apply elem_of_app; left; exact Ha|]. intros x Hx. apply elem_of_app in Hx as [Hx|Hx]; [apply La, Hx|].
      destruct (slt x a) eqn:Ex; [|reflexivity]. specialize (Lb x Hx). destruct (slt a b) eqn:Eab.
      + rewrite (Htr x a b) in Lb; auto.
      + rewrite (Htot a b) in Ex by auto. congruence.
  Qed.
  Lemma least_one x : num x -> least slt [x] x.
  Proof. intros H. split; [left|]. intros y Hy. apply elem_of_list_singleton in Hy as ->. apply (oo_irr _ _ Ho), H. Qed.
End Least.
Lemma order_flip {F} (slt : F -> F -> bool) num : order_on slt num -> order_on (fun x y => slt y x) num.
Proof. intros [H1 H2 H3]. split; [exact H1| |]; intros; eauto. Qed.

Section C52.
  Context {F : Type} {O : SOps F} {Fd : Field F} (sabs : F -> F) (slt : F -> F -> bool) (snat : nat -> F).
  Add Ring Fr : cring.
  Lemma div_one (x : F) : (x / s1)%s = x.
  Proof. pose proof (field_div x s1 field_10) as H. rewrite <- H at 2. ring. Qed.
  Lemma mul_cancel (x y d : F) : d <> s0 -> (x * d)%s = (y * d)%s -> x = y.
  Proof.
    intros Hd H. assert (forall z : F, z = (z * d * (s1 / d))%s) as E.
    { intros z. pose proof (field_div s1 d Hd) as E. transitivity (z * (s1 / d * d))%s; [rewrite E|]; ring. }
    rewrite (E x), (E y), H. reflexivity.
  Qed.
  Lemma one_minus (y d : F) : d <> s0 -> (s1 - y / d)%s = ((d - y) / d)%s.
  Proof.
    intros Hd. apply (mul_cancel _ _ d Hd). rewrite field_div by exact Hd. transitivity (d - y / d * d)%s; [ring|]. rewrite field_div by exact Hd. reflexivity.
  Qed.
  Variables (so : storage) (bs : nat) (big top : F) (M : srmat F) (num : F -> Prop).
  Hypotheses (Hw : wf_pat M) (He : wf_end M) (Hd : wf_diag M) (Hs : wf_sorted M) (Hv : wf_vals bs M).
  Hypotheses (Habs : sabs s0 = s0) (Hnz : forall R, R < nbrows M * bs -> sabs (bdense so bs M R R) <> s0).
  Hypotheses (Ho : order_on slt num) (Hbig : num big) (Htop : num top) (Hmax : forall x, num x -> slt top x = false).
  Notation bl := (lower_dominance sabs so bs M).
  Notation bu := (upper_dominance sabs so bs M).
  Hypothesis Hnum : forall R, R < nbrows M * bs -> num (bl R) /\ num (bu R).

  Lemma bent_vat jj p r : bent so bs (vals M) jj p r = vat (vals M) (jj * (bs * bs) + lay so bs p r).
  Proof. reflexivity. Qed.
  Lemma lay_lt p r : p < bs -> r < bs -> lay so bs p r < bs * bs.
  Proof. intros Hp Hr. destruct so; simpl; nia. Qed.
  Lemma add_block_spec skip jj r : length r = bs -> jj < nnz M -> ok (add_block sabs so bs skip M jj r) (fun r' => length r' = bs /\
    forall p, p < bs -> vat r' p = (vat r p + bsum bs (fun c => if skip && (p =? c) then s0 else sabs (bent so bs (vals M) jj p c)))%s).
  Proof.
    intros Hl Hj. unfold add_block. eapply ok_for_post with (I := fun k r' => length r' = bs /\ (forall p, k <= p -> vat r' p = vat r p) /\
      forall p, p < k -> vat r' p = (vat r p + bsum bs (fun c => if skip && (p =? c) then s0 else sabs (bent so bs (vals M) jj p c)))%s).
    - lia.
    - split; [exact Hl|]. split; [reflexivity|]. intros; lia.
    - intros i r1 Hi (L1 & H1 & H2). eapply ok_for_post with (I := fun k r' => length r' = bs /\ (forall p, p <> i -> vat r' p = vat r1 p) /\
        vat r' i = (vat r i + bsum k (fun c => if skip && (i =? c) then s0 else sabs (bent so bs (vals M) jj i c)))%s).
      + lia.
      + split; [exact L1|]. split; [reflexivity|]. rewrite H1 by lia. simpl. ring.
      + intros j r2 Hj2 (L2 & H3 & H4). replace (j + 1) with (S j) by lia. cbn [bsum]. destruct (skip && (i =? j)).
        * apply ok_ret. split; [exact L2|]. split; [exact H3|]. rewrite H4. ring.
        * rewrite vat_get by (rewrite Hv; pose proof (lay_lt i j ltac:(lia) ltac:(lia)); nia). cbn [bind]. rewrite vat_get by lia. cbn [bind].
          apply ok_set; [lia|]. rewrite insert_length. split; [exact L2|]. split.
          -- intros p Hp. unfold vat at 1. rewrite list_lookup_insert_ne by congruence. apply H3, Hp.
          -- unfold vat at 1. rewrite list_lookup_insert by lia. simpl. rewrite H4. ring_simplify. rewrite bent_vat. reflexivity.
      + intros r2 (L2 & H3 & H4). split; [exact L2|]. split.
        * intros p Hp. rewrite H3 by lia. apply H1. lia.
        * intros p Hp. destruct (decide (p = i)) as [->|]; [exact H4|]. rewrite H3 by assumption. apply H2. lia.
    - intros r' (L & _ & H). split; [exact L|exact H].
  Qed.
  Lemma add_blocks_spec a b r : length r = bs -> a <= b -> b <= nnz M -> ok (for_ a b (fun jj r => add_block sabs so bs false M jj r) r) (fun r' => length r' = bs /\
    forall p, p < bs -> vat r' p = (vat r p + lsum (fun jj => bsum bs (fun c => sabs (bent so bs (vals M) jj p c))) (range a b))%s).
  Proof.
    intros Hl Hab Hb. eapply ok_for_post with (I := fun k r' => length r' = bs /\
      forall p, p < bs -> vat r' p = (vat r p + lsum (fun jj => bsum bs (fun c => sabs (bent so bs (vals M) jj p c))) (range a k))%s).
    - exact Hab.
    - split; [exact Hl|]. intros p Hp. rewrite range_nil by lia. simpl. ring.
    - intros jj r1 Hj [L1 H1]. eapply ok_mono; [apply add_block_spec; [exact L1|lia]|]. intros r2 [L2 H2]. split; [exact L2|]. intros p Hp.
      rewrite H2, H1 by exact Hp. rewrite range_snoc by lia. rewrite lsum_app. simpl. ring.
    - auto.
  Qed.
  Lemma bdense_flat i p c r : p < bs -> r < bs -> bdense so bs M (i * bs + p) (c * bs + r) = match pos M i c with Some j => bent so bs (vals M) j p r | None => s0 end.
  Proof.
    intros Hp Hr. unfold bdense. rewrite !Nat.div_add_l by lia. rewrite !Nat.div_small by lia. rewrite !Nat.add_0_r.
    rewrite (Nat.add_comm (i * bs)), (Nat.add_comm (c * bs)), !Nat.mod_add by lia. rewrite !Nat.mod_small by lia. reflexivity.
  Qed.
  Lemma div_flat i p : p < bs -> (i * bs + p) / bs = i.
  Proof. intros Hp. rewrite Nat.div_add_l by lia. rewrite Nat.div_small by lia. lia. Qed.
  Lemma lower_value i p : i < nbrows M -> p < bs ->
    (s1 - lsum (fun jj => bsum bs (fun c => sabs (bent so bs (vals M) jj p c))) (range (rp M i) (dg M i)))%s = bl (i * bs + p).
  Proof.
    intros Hi Hp. unfold lower_dominance. rewrite div_one. f_equal. destruct Hd as [_ Hd']. destruct (Hd' i Hi) as [Hd1 Hd2].
    rewrite (row_sum M i _ _ (fun c => c < i)); auto using sorted_nodup; [|lia|intros j Hj; rewrite <- (before_diag M i j); auto; destruct Hj; lia].
    rewrite bsum_flat. apply bsum_ext. intros c Hc. destruct (decide (c < i)) as [Hci|Hci].
    - destruct (pos M i c) as [j|] eqn:E.
      + apply bsum_ext. intros r Hr. rewrite decide_True by (rewrite !div_flat by assumption; exact Hci). rewrite bdense_flat, E by assumption. reflexivity.
      + symmetry. apply bsum_zero. intros r Hr. rewrite decide_True by (rewrite !div_flat by assumption; exact Hci). rewrite bdense_flat, E by assumption. exact Habs.
    - symmetry. apply bsum_zero. intros r Hr. rewrite decide_False; [reflexivity|]. rewrite !div_flat by assumption. exact Hci.
  Qed.
  Lemma upper_value i p : i < nbrows M -> p < bs ->
    (s1 - (bsum bs (fun c => if p =? c then s0 else sabs (bent so bs (vals M) (dg M i) p c)) +
      lsum (fun jj => bsum bs (fun c => sabs (bent so bs (vals M) jj p c))) (range (dg M i + 1) (rp M (i + 1)))) / sabs (bent so bs (vals M) (dg M i) p p))%s
    = bu (i * bs + p).
  Proof.
    intros Hi Hp. assert (bent so bs (vals M) (dg M i) p p = bdense so bs M (i * bs + p) (i * bs + p)) as Ed.
    { rewrite bdense_flat by assumption. rewrite pos_diag by auto using sorted_nodup. reflexivity. }
    rewrite Ed. rewrite one_minus by (apply Hnz; nia). unfold upper_dominance. f_equal. f_equal.
    destruct Hd as [_ Hd']. destruct (Hd' i Hi) as [Hd1 Hd2].
    rewrite (row_sum M i _ _ (fun c => i < c)); auto using sorted_nodup; [|lia|intros j Hj; rewrite <- (after_diag M i j); auto; destruct Hj; lia].
    rewrite bsum_flat. rewrite <- (bsum_delta (nbrows M) i (fun _ => bsum bs (fun c => if p =? c then s0 else sabs (bent so bs (vals M) (dg M i) p c)))) by exact Hi.
    rewrite <- bsum_add. apply bsum_ext. intros c Hc. destruct (lt_eq_lt_dec c i) as [[Hci| ->]|Hci].
    - rewrite decide_False, decide_False by lia. transitivity (s0 : F); [ring|]. symmetry. apply bsum_zero. intros r Hr.
      rewrite decide_False; [reflexivity|]. rewrite !div_flat by assumption. lia.
    - rewrite decide_True, decide_False by lia. match goal with |- (?a + s0)%s = _ => transitivity a; [ring|] end. apply bsum_ext. intros r Hr. rewrite !div_flat by assumption.
      destruct (Nat.eqb_spec p r) as [->|Hne]; [rewrite decide_False by lia; reflexivity|]. rewrite decide_True by lia.
      rewrite bdense_flat, pos_diag by auto using sorted_nodup. reflexivity.
    - rewrite decide_False, decide_True by lia. match goal with |- (s0 + ?a)%s = _ => transitivity a; [ring|] end. destruct (pos M i c) as [j|] eqn:E.
      + apply bsum_ext. intros r Hr. rewrite decide_True by (rewrite !div_flat by assumption; nia). rewrite bdense_flat, E by assumption. reflexivity.
      + symmetry. apply bsum_zero. intros r Hr. rewrite decide_True by (rewrite !div_flat by assumption; nia). rewrite bdense_flat, E by assumption. exact Habs.
  Qed.
  Definition row_vals (f : nat -> F) (i : nat) : list F := (fun p => f (i * bs + p)) <$> seq 0 bs.
  Lemma dd_row_spec i ua um la lm : i < nbrows M -> ok (dd_row sabs slt so bs big M i (ua, um, la, lm)) (fun '(ua', um', la', lm') =>
    exists u l, least slt (big :: row_vals bu i) u /\ least slt (big :: row_vals bl i) l /\
      ua' = (ua + bsum bs (fun p => bu (i * bs + p)))%s /\ la' = (la + bsum bs (fun p => bl (i * bs + p)))%s /\
      um' = (if slt u um then u else um) /\ lm' = (if slt l lm then l else lm)).
  Proof.
    intros Hi. unfold dd_row. unfold get at 1. rewrite (wf_diagind M i Hd Hi). cbn [bind]. destruct Hd as [_ Hd']. destruct (Hd' i Hi) as [Hd1 Hd2].
    pose proof (rp_mono M (i + 1) (nbrows M) Hw ltac:(lia) ltac:(lia)) as Hle. fold (nnz M) in Hle.
    eapply ok_bind; [apply add_block_spec; [apply replicate_length|lia]|]. intros r1 [L1 H1]. cbn beta.
    destruct He as [_ He']. unfold get at 1. rewrite (He' i Hi). cbn [bind].
    eapply ok_bind; [apply add_blocks_spec; [exact L1|lia|lia]|]. intros r2 [L2 H2]. unfold get at 1. rewrite (wf_browptr M i Hw) by lia. cbn [bind].
    eapply ok_bind; [apply add_blocks_spec; [apply replicate_length|lia|lia]|]. intros r3 [L3 H3].
    assert (forall p, vat (replicate bs (s0 : F)) p = s0) as Hrep.
    { intros p. unfold vat. destruct (decide (p < bs)); [rewrite lookup_replicate_2 by assumption; reflexivity|]. rewrite lookup_ge_None_2 by (rewrite replicate_length; lia). reflexivity. }
    eapply ok_bind with (P := fun '(l, u) => length l = bs /\ length u = bs /\ forall p, p < bs -> vat l p = bl (i * bs + p) /\ vat u p = bu (i * bs + p)).
    - eapply ok_for_post with (I := fun k '(l, u) => length l = bs /\ length u = bs /\ (forall p, k <= p -> vat l p = vat r3 p /\ vat u p = vat r2 p) /\
        forall p, p < k -> vat l p = bl (i * bs + p) /\ vat u p = bu (i * bs + p)).
      + lia.
      + split; [exact L3|]. split; [exact L2|]. split; [auto|]. intros; lia.
      + intros p [l u] Hp (Ll & Lu & Ha & Hb). rewrite vat_get by lia. cbn [bind]. rewrite set_Ok by lia. cbn [bind]. rewrite vat_get by lia. cbn [bind].
        rewrite vat_get by (rewrite Hv; pose proof (lay_lt p p ltac:(lia) ltac:(lia)); nia). cbn [bind]. rewrite set_Ok by lia. cbn [bind]. apply ok_ret. rewrite !insert_length.
        split; [exact Ll|]. split; [exact Lu|]. split.
        * intros p' Hp'. unfold vat. rewrite !list_lookup_insert_ne by lia. apply Ha. lia.
        * intros p' Hp'. destruct (decide (p' = p)) as [->|Hne].
          -- unfold vat at 1 3. rewrite !list_lookup_insert by lia. cbn [default]. unfold default. destruct (Ha p ltac:(lia)) as [-> ->]. split.
             ++ rewrite H3, Hrep by lia. rewrite <- lower_value by lia. unfold id. ring.
             ++ rewrite H2, H1, Hrep by lia. rewrite <- upper_value by lia. unfold id. rewrite bent_vat. f_equal. f_equal. cbn [andb]. ring.
          -- unfold vat. rewrite !list_lookup_insert_ne by lia. apply Hb. lia.
      + intros [l u] (Ll & Lu & _ & Hb). split; [exact Ll|]. split; [exact Lu|]. exact Hb.
    - intros [l u] (Ll & Lu & Hlu). cbn beta iota.
      eapply ok_bind with (P := fun '(ub, umb, lb, lmb) => least slt (big :: row_vals bu i) umb /\ least slt (big :: row_vals bl i) lmb /\
        ub = bsum bs (fun p => bu (i * bs + p)) /\ lb = bsum bs (fun p => bl (i * bs + p))).
      + eapply ok_for_post with (I := fun k '(ub, umb, lb, lmb) => least slt (big :: ((fun p => bu (i * bs + p)) <$> seq 0 k)) umb /\
          least slt (big :: ((fun p => bl (i * bs + p)) <$> seq 0 k)) lmb /\ ub = bsum k (fun p => bu (i * bs + p)) /\ lb = bsum k (fun p => bl (i * bs + p))).
        * lia.
        * split; [apply (least_one slt num Ho), Hbig|]. split; [apply (least_one slt num Ho), Hbig|]. auto.
        * intros p [[[ub umb] lb] lmb] Hp (Ha & Hb & -> & ->). rewrite !vat_get by lia. cbn [bind]. destruct (Hlu p ltac:(lia)) as [-> ->]. apply ok_ret.
          assert (forall k, k <= bs -> (forall x, x ∈ big :: ((fun p => bu (i * bs + p)) <$> seq 0 k) -> num x) /\ (forall x, x ∈ big :: ((fun p => bl (i * bs + p)) <$> seq 0 k) -> num x)) as Hn.
          { intros k Hk. split; intros x Hx; apply elem_of_cons in Hx as [->|Hx]; try exact Hbig; apply elem_of_list_fmap in Hx as (p' & -> & Hp'); apply elem_of_seq in Hp'; apply Hnum; nia. }
          destruct (Hnum (i * bs + p) ltac:(nia)) as [Nl Nu]. replace (p + 1) with (S p) by lia. rewrite seq_S, !fmap_app. split; [|split; [|split; reflexivity]].
          -- apply (least_comb slt num Ho (_ :: _) [_]); [apply Hn; lia| |exact Ha|apply (least_one slt num Ho); exact Nu]. intros x Hx. apply elem_of_list_singleton in Hx as ->. exact Nu.
          -- apply (least_comb slt num Ho (_ :: _) [_]); [apply Hn; lia| |exact Hb|apply (least_one slt num Ho); exact Nl]. intros x Hx. apply elem_of_list_singleton in Hx as ->. exact Nl.
        * intros [[[ub umb] lb] lmb] H. exact H.
      + intros [[[ub umb] lb] lmb] (Ha & Hb & -> & ->). apply ok_ret. exists umb, lmb. auto 10.
  Qed.
  (** all the numbers the items account for *)
  Definition item_vals (f : nat -> F) (o : option nat) : list F := match o with None => [big] | Some i => big :: row_vals f i end.
  Definition item_sum (f : nat -> F) (o : option nat) : F := match o with None => s0 | Some i => bsum bs (fun p => f (i * bs + p)) end.
  Definition dd_acc (l : list (option nat)) (s : dd (F := F)) : Prop :=
    let '(ua, um, la, lm) := s in (forall i, Some i ∈ l -> i < nbrows M) /\
    ua = lsum (item_sum bu) l /\ la = lsum (item_sum bl) l /\ least slt (top :: (l ≫= item_vals bu)) um /\ least slt (top :: (l ≫= item_vals bl)) lm.
  Lemma item_num l : (forall i, Some i ∈ l -> i < nbrows M) ->
    (forall x, x ∈ top :: (l ≫= item_vals bu) -> num x) /\ (forall x, x ∈ top :: (l ≫= item_vals bl) -> num x).
  Proof.
    intros Hl. split; intros x Hx; (apply elem_of_cons in Hx as [->|Hx]; [exact Htop|]; apply elem_of_list_bind in Hx as ([i|] & Hx & Hi); simpl in Hx;
      apply elem_of_cons in Hx as [->|Hx]; [exact Hbig| |exact Hbig|apply elem_of_nil in Hx as []];
      apply elem_of_list_fmap in Hx as (p & -> & Hp); apply elem_of_seq in Hp; specialize (Hl i Hi); apply Hnum; nia).
  Qed.
  Lemma dd_acc_perm l l' s : l ≡ₚ l' -> dd_acc l s -> dd_acc l' s.
  Proof.
    intros Hp. destruct s as [[[ua um] la] lm]. intros (H0 & -> & -> & H1 & H2). split; [intros i Hi; apply H0; rewrite Hp; exact Hi|].
    split; [apply lsum_perm, Hp|]. split; [apply lsum_perm, Hp|].
    split; [apply (least_equiv _ (top :: (l ≫= item_vals bu)))|apply (least_equiv _ (top :: (l ≫= item_vals bl)))]; try assumption; intros x; rewrite Hp; reflexivity.
  Qed.
  Lemma dd_acc_comb l1 l2 x y : dd_acc l1 x -> dd_acc l2 y -> dd_acc (l1 ++ l2) (dd_comb slt x y).
  Proof.
    destruct x as [[[ua um] la] lm], y as [[[ua' um'] la'] lm']. intros (N1 & -> & -> & H1 & H2) (N2 & -> & -> & H3 & H4). simpl.
    destruct (item_num l1 N1) as [A1 B1]. destruct (item_num l2 N2) as [A2 B2].
    split; [intros i Hi; apply elem_of_app in Hi as [Hi|Hi]; auto|]. split; [symmetry; apply lsum_app|]. split; [symmetry; apply lsum_app|].
    split.
    - apply (least_equiv slt ((top :: (l1 ≫= item_vals bu)) ++ (top :: (l2 ≫= item_vals bu)))); [|apply (least_comb slt num Ho); assumption].
      intros z. rewrite bind_app, elem_of_app, !elem_of_cons, elem_of_app. tauto.
    - apply (least_equiv slt ((top :: (l1 ≫= item_vals bl)) ++ (top :: (l2 ≫= item_vals bl)))); [|apply (least_comb slt num Ho); assumption].
      intros z. rewrite bind_app, elem_of_app, !elem_of_cons, elem_of_app. tauto.
  Qed.
  Lemma least_top l m : big ∈ l -> (forall x, x ∈ l -> num x) -> least slt (top :: l) m -> least slt l m.
  Proof.
    intros Hb Hn [H1 H2]. split; [|intros x Hx; apply H2; right; exact Hx]. apply elem_of_cons in H1 as [->|H1]; [|exact H1].
    assert (big = top) as <-; [|exact Hb]. apply (oo_total _ _ Ho); auto. apply H2. right. exact Hb.
  Qed.
  Lemma items_all (f : nat -> F) x : x ∈ ((None :: (Some <$> range 0 (nbrows M))) ≫= item_vals f) <-> x ∈ big :: (f <$> seq 0 (nbrows M * bs)).
  Proof.
    rewrite elem_of_list_bind, elem_of_cons, elem_of_list_fmap. split.
    - intros ([i|] & Hx & Hi); simpl in Hx; apply elem_of_cons in Hx as [->|Hx]; auto; [|apply elem_of_nil in Hx as []]. right.
      apply elem_of_cons in Hi as [Hi|Hi]; [discriminate|]. apply elem_of_list_fmap in Hi as (i' & [= ->] & Hi). apply elem_of_range in Hi.
      apply elem_of_list_fmap in Hx as (p & -> & Hp). apply elem_of_seq in Hp. exists (i' * bs + p). split; [reflexivity|]. apply elem_of_seq. nia.
    - intros [->|(R & -> & HR)]; [exists None; split; [left|left]|]. apply elem_of_seq in HR. assert (bs <> 0) as Hb by (intros ->; lia).
      exists (Some (R / bs)). split.
      + simpl. right. apply elem_of_list_fmap. exists (R mod bs). pose proof (Nat.mod_upper_bound R bs Hb). split; [f_equal; rewrite (Nat.div_mod R bs Hb) at 1; lia|apply elem_of_seq; lia].
      + right. apply elem_of_list_fmap. exists (R / bs). split; [reflexivity|]. apply elem_of_range. split; [lia|]. apply Nat.div_lt_upper_bound; lia.
  Qed.
  Lemma items_sum (f : nat -> F) : lsum (item_sum f) (None :: (Some <$> range 0 (nbrows M))) = bsum (nbrows M * bs) f.
  Proof.
    rewrite bsum_flat. simpl. match goal with |- (s0 + ?a)%s = _ => transitivity a; [ring|] end. generalize (nbrows M) as n. intros n. unfold range. rewrite Nat.sub_0_r.
    induction n as [|n IH]; [reflexivity|]. rewrite seq_S, fmap_app, lsum_app, IH. simpl. ring.
  Qed.
  (** For every distribution of the rows over threads and every order of the reductions: averages and minima of the dominances of the rows
      (the minimum started from [big], the code's 1e30) *)
  Theorem C52_dominance : nok (diagonal_dominance sabs slt snat so bs big top M) (fun '(lavg, lmin, uavg, umin) =>
    lavg = (bsum (nbrows M * bs) bl / snat (nbrows M * bs))%s /\ least slt (big :: (bl <$> seq 0 (nbrows M * bs))) lmin /\
    uavg = (bsum (nbrows M * bs) bu / snat (nbrows M * bs))%s /\ least slt (big :: (bu <$> seq 0 (nbrows M * bs))) umin).
  Proof.
    unfold diagonal_dominance. eapply nok_bind.
    - apply (nok_reduce dd_acc (dd_comb slt) dd_acc_perm dd_acc_comb); [| | |intros s H; exact H].
      + split; [intros i Hi; apply elem_of_nil in Hi as []|]. split; [reflexivity|]. split; [reflexivity|]. split; apply (least_one slt num Ho), Htop.
      + split; [intros i Hi; apply elem_of_list_singleton in Hi; discriminate|]. split; [simpl; ring|]. split; [simpl; ring|].
        assert (least slt [top; big] big) as H; [|split; exact H]. split; [right; left|]. intros x Hx. apply elem_of_cons in Hx as [->|Hx]; [apply Hmax, Hbig|].
        apply elem_of_list_singleton in Hx as ->. apply (oo_irr _ _ Ho), Hbig.
      + intros l i [[[ua um] la] lm] Hi (N & -> & -> & H1 & H2). eapply ok_mono; [apply dd_row_spec; lia|]. intros [[[ua' um'] la'] lm'] (u & v & Hu & Hv' & -> & -> & -> & ->).
        destruct (item_num l N) as [A1 B1]. assert (forall j, Some j ∈ [Some i] -> j < nbrows M) as Ni by (intros j Hj; apply elem_of_list_singleton in Hj as [= ->]; lia).
        destruct (item_num [Some i] Ni) as [A2 B2]. split; [intros j Hj; apply elem_of_app in Hj as [Hj|Hj]; auto|].
        split; [rewrite lsum_app; simpl; ring|]. split; [rewrite lsum_app; simpl; ring|]. rewrite !bind_app. simpl. rewrite !app_nil_r. simpl in A2, B2. rewrite app_nil_r in A2, B2.
        split.
        * apply (least_comb slt num Ho (top :: (l ≫= item_vals bu))); [exact A1| |exact H1|exact Hu]. intros x Hx. apply A2. right. exact Hx.
        * apply (least_comb slt num Ho (top :: (l ≫= item_vals bl))); [exact B1| |exact H2|exact Hv']. intros x Hx. apply B2. right. exact Hx.
    - intros [[[ua um] la] lm] (N & -> & -> & H1 & H2). apply nok_ret. rewrite !items_sum. split; [reflexivity|]. destruct (item_num _ N) as [A1 B1].
      split; [|split; [reflexivity|]].
      + apply (least_equiv slt _ _ _ (items_all bl)). apply least_top; [apply items_all; left| |exact H2]. intros x Hx. apply B1. right. exact Hx.
      + apply (least_equiv slt _ _ _ (items_all bu)). apply least_top; [apply items_all; left| |exact H1]. intros x Hx. apply A1. right. exact Hx.
  Qed.
  (** the minima are those of the rows if these are below 1e30 *)
  Corollary C52_minimum : 0 < nbrows M * bs -> (forall R, R < nbrows M * bs -> slt (bl R) big = true /\ slt (bu R) big = true) ->
    nok (diagonal_dominance sabs slt snat so bs big top M) (fun '(lavg, lmin, uavg, umin) =>
      least slt (bl <$> seq 0 (nbrows M * bs)) lmin /\ least slt (bu <$> seq 0 (nbrows M * bs)) umin).
  Proof.
    intros Hpos Hlt. eapply nok_mono; [apply C52_dominance|]. intros [[[lavg lmin] uavg] umin] (_ & [L1 L2] & _ & [U1 U2]).
    assert (forall (f : nat -> F) m, m ∈ big :: (f <$> seq 0 (nbrows M * bs)) -> (forall x, x ∈ big :: (f <$> seq 0 (nbrows M * bs)) -> slt x m = false) -> slt (f 0) big = true ->
      least slt (f <$> seq 0 (nbrows M * bs)) m) as H.
    { intros f m H1 H2 H3. split; [|intros x Hx; apply H2; right; exact Hx]. apply elem_of_cons in H1 as [->|H1]; [|exact H1].
      rewrite H2 in H3; [discriminate|]. right. apply elem_of_list_fmap. exists 0. split; [reflexivity|apply elem_of_seq; lia]. }
    split; apply H; auto; apply Hlt, Hpos.
  Qed.
End C52.

Section C53.
  Context {F : Type} (sabs : F -> F) (slt : F -> F -> bool) (num : F -> Prop) (tiny bottom : F).
  Hypotheses (Ho : order_on slt num) (Ht : num tiny) (Hb : num bottom) (Hmin : forall x, num x -> slt x bottom = false).
  Lemma greatest_comb l1 l2 a b : (forall x, x ∈ l1 -> num x) -> (forall x, x ∈ l2 -> num x) -> greatest slt l1 a -> greatest slt l2 b ->
    greatest slt (l1 ++ l2) (if slt a b then b else a).
  Proof. apply (least_comb (fun x y => slt y x) num (order_flip slt num Ho)). Qed.
  (** the greatest of the magnitudes and the smallest normal number [tiny], for every distribution and order of the reduction *)
  Lemma maxnorm_greatest v : (forall x, x ∈ v -> num (sabs x)) -> nok (maxnorm sabs slt tiny bottom v) (greatest slt (tiny :: (sabs <$> v))).
  Proof.
    intros Hn. unfold maxnorm.
    set (item := fun o : option nat => match o with None => [tiny] | Some i => match v !! i with Some x => [sabs x] | None => [] end end).
    assert (forall l x, x ∈ bottom :: (l ≫= item) -> num x) as Hin.
    { intros l x Hx. apply elem_of_cons in Hx as [->|Hx]; [exact Hb|]. apply elem_of_list_bind in Hx as ([i|] & Hx & _); simpl in Hx.
      - destruct (v !! i) as [y|] eqn:E; [|apply elem_of_nil in Hx as []]. apply elem_of_list_singleton in Hx as ->. apply Hn. eapply elem_of_list_lookup_2, E.
      - apply elem_of_list_singleton in Hx as ->. exact Ht. }
    apply (nok_reduce (fun l m => greatest slt (bottom :: (l ≫= item)) m)).
    - intros l l' s Hp [H1 H2]. split; [rewrite <- Hp; exact H1|]. intros x Hx. apply H2. rewrite Hp. exact Hx.
    - intros l1 l2 x y H1 H2. apply (least_equiv (fun x y => slt y x) ((bottom :: (l1 ≫= item)) ++ (bottom :: (l2 ≫= item)))).
      + intros z. rewrite bind_app, elem_of_app, !elem_of_cons, elem_of_app. tauto.
      + apply (greatest_comb (bottom :: (l1 ≫= item)) (bottom :: (l2 ≫= item))); [apply Hin|apply Hin|exact H1|exact H2].
    - split; [left|]. intros x Hx. apply elem_of_list_singleton in Hx as ->. apply (oo_irr _ _ Ho), Hb.
    - split; [right; left|]. intros x Hx. apply elem_of_cons in Hx as [->|Hx]; [apply Hmin, Ht|]. apply elem_of_list_singleton in Hx as ->. apply (oo_irr _ _ Ho), Ht.
    - intros l i s Hi Hs. destruct (lookup_lt_is_Some_2 v i) as [x Ex]; [lia|]. unfold get. rewrite Ex. cbn [bind]. apply ok_ret.
      assert (num (sabs x)) as Hx by (apply Hn; eapply elem_of_list_lookup_2, Ex).
      rewrite bind_app. simpl. rewrite Ex. simpl. apply (greatest_comb (bottom :: (l ≫= item)) [sabs x]); [apply Hin| |exact Hs|].
      + intros y Hy. apply elem_of_list_singleton in Hy as ->. exact Hx.
      + split; [left|]. intros y Hy. apply elem_of_list_singleton in Hy as ->. apply (oo_irr _ _ Ho), Hx.
    - intros m [H1 H2].
      assert (forall x, x ∈ ((None :: (Some <$> range 0 (length v))) ≫= item) <-> x ∈ tiny :: (sabs <$> v)) as Hall.
      { intros x. rewrite elem_of_list_bind, elem_of_cons, elem_of_list_fmap. split.
        - intros ([i|] & Hx & _); simpl in Hx; [|apply elem_of_list_singleton in Hx; auto]. right. destruct (v !! i) as [y|] eqn:E; [|apply elem_of_nil in Hx as []].
          apply elem_of_list_singleton in Hx as ->. exists y. split; [reflexivity|eapply elem_of_list_lookup_2, E].
        - intros [->|(y & -> & Hy)]; [exists None; split; left|]. apply elem_of_list_lookup in Hy as (i & Ei). exists (Some i). split; [simpl; rewrite Ei; left|].
          right. apply elem_of_list_fmap. exists i. split; [reflexivity|]. apply elem_of_range. apply lookup_lt_Some in Ei. lia. }
      split; [|intros x Hx; apply H2; right; apply Hall, Hx]. apply elem_of_cons in H1 as [->|H1]; [|apply Hall, H1].
      assert (tiny = bottom) as <-; [|left]. apply (oo_total _ _ Ho); auto. apply H2. right. apply Hall. left.
  Qed.
  (** the maximum norm, if some magnitude is not below the smallest normal number *)
  Theorem C53_maxnorm v : (forall x, x ∈ v -> num (sabs x)) -> (exists x, x ∈ v /\ slt (sabs x) tiny = false) ->
    nok (maxnorm sabs slt tiny bottom v) (greatest slt (sabs <$> v)).
  Proof.
    intros Hn (x & Hx & Hxt). eapply nok_mono; [apply maxnorm_greatest, Hn|]. intros m [H1 H2]. split; [|intros y Hy; apply H2; right; exact Hy].
    apply elem_of_cons in H1 as [->|H1]; [|exact H1]. assert (tiny = sabs x) as ->; [|apply elem_of_list_fmap; eauto].
    apply (oo_total _ _ Ho); auto. apply H2. right. apply elem_of_list_fmap. eauto.
  Qed.
  (** Otherwise, in particular for the zero vector, the result is [tiny], greater than every magnitude *)
  Theorem C53_zero_refuted v : (forall x, x ∈ v -> num (sabs x)) -> (forall x, x ∈ v -> slt (sabs x) tiny = true) ->
    nok (maxnorm sabs slt tiny bottom v) (fun m => m = tiny /\ forall x, x ∈ v -> slt (sabs x) m = true).
  Proof.
    intros Hn Hx. eapply nok_mono; [apply maxnorm_greatest, Hn|]. intros m [H1 H2]. assert (m = tiny) as ->; [|auto].
    apply elem_of_cons in H1 as [H1|H1]; [exact H1|]. apply elem_of_list_fmap in H1 as (x & -> & Hx'). specialize (H2 tiny ltac:(left)).
    rewrite Hx in H2 by exact Hx'. discriminate.
  Qed.
End C53.
(** the matrix exM: rows 4 1 0 / 2 5 1 / 0 1 3 *)
Example C52_case : wf_pat exM /\ wf_end exM /\ wf_diag exM /\ wf_sorted exM /\ wf_vals 1 exM /\ Qabs (q 0) = q 0 /\
  (forall R, R < 3 * 1 -> Qabs (bdense ColMajor 1 exM R R) <> q 0) /\
  (forall R, R < 3 * 1 -> Qlt (lower_dominance Qabs ColMajor 1 exM R) (q 100) = true /\ Qlt (upper_dominance Qabs ColMajor 1 exM R) (q 100) = true) /\
  (lower_dominance Qabs ColMajor 1 exM <$> [0; 1; 2]) = q <$> [1; -1; 0]%Z /\
  (upper_dominance Qabs ColMajor 1 exM <$> [0; 1; 2]) = [(q 3 / q 4)%Qc; (q 4 / q 5)%Qc; q 1].
Proof.
  split; [exact exM_pat|]. split; [split; [reflexivity|]; intros i Hi; simpl in Hi; do 3 (destruct i as [|i]; [reflexivity|]); lia|]. split; [exact exM_diag|]. split; [exact exM_sorted|]. split; [reflexivity|].
  split; [reflexivity|]. split; [intros R HR; do 3 (destruct R as [|R]; [vm_compute; discriminate|]); lia|].
  split; [intros R HR; do 3 (destruct R as [|R]; [split; vm_compute; reflexivity|]); lia|].
  split; simpl; repeat f_equal; apply Qc_is_canon; vm_compute; reflexivity.
Qed.
(** the hypotheses on the least number cannot be met by all rationals; here by those from -100 to 100, and the two vectors 1, -3 and 0, 0 *)
Definition small (x : Qc) : Prop := Qlt (q 100) x = false /\ Qlt x (q (-100)) = false.
Example C53_case : order_on Qlt small /\ small (q 1) /\ small (q (-100)) /\ (forall x, small x -> Qlt x (q (-100)) = false) /\
  (forall x, x ∈ [q 1; q (-3)] -> small (Qabs x)) /\ (exists x, x ∈ [q 1; q (-3)] /\ Qlt (Qabs x) (q 1) = false) /\
  (forall x, x ∈ [q 0; q 0] -> Qlt (Qabs x) (q 1) = true).
Proof.
  split; [destruct Qlt_order as [H1 H2 H3]; split; eauto|]. split; [split; reflexivity|]. split; [split; reflexivity|]. split; [intros x Hx; apply Hx|].
  split; [intros x Hx; repeat (apply elem_of_cons in Hx as [-> |Hx]; [split; vm_compute; reflexivity|]); apply elem_of_nil in Hx as []|].
  split; [exists (q (-3)); split; [right; left|reflexivity]|].
  intros x Hx. repeat (apply elem_of_cons in Hx as [-> |Hx]; [reflexivity|]). apply elem_of_nil in Hx as [].
Qed.
(** the same bounded rationals for the dominances *)
Example C52_order : small (q 99) /\ small (q 100) /\ (forall x, small x -> Qlt (q 100) x = false) /\
  (forall R, R < 3 * 1 -> small (lower_dominance Qabs ColMajor 1 exM R) /\ small (upper_dominance Qabs ColMajor 1 exM R)).
Proof.
  split; [split; reflexivity|]. split; [split; reflexivity|]. split; [intros x Hx; apply Hx|]. intros R HR. do 3 (destruct R as [|R]; [repeat split; vm_compute; reflexivity|]). lia.
Qed.

Print Assumptions C52_dominance.
Print Assumptions C52_minimum.
Print Assumptions C53_maxnorm.
Print Assumptions C53_zero_refuted.
