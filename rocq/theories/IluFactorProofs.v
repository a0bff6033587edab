(** * IluFactorProofs: consistent factors are those whose product matches the matrix *)
From Verif Require Import Base Alg SRMatrix Async AsyncTheory AsyncSystem AsyncSweeps AsyncFlat Nd Kernels KernelFacts
  Helpers IluPattern IluPatternFacts IluApply IluApplyFacts TriSpec TriFacts IluApplyProofs Sgs SgsForms Chains IluApplyMain IluFactor IluFactorFacts.

Section Sums.
  Context {F : Type} {O : SOps F} {R : CRing F}.
  Add Ring Fr : cring.
  Open Scope s_scope.

  Lemma lsum_omap {A B} (f : A -> option B) (g : B -> F) l :
    lsum g (omap f l) = lsum (fun a => match f a with Some b => g b | None => s0 end) l.
  Proof.
    induction l as [|a l IH]; [reflexivity|].
    change (lsum (fun a => match f a with Some b => g b | None => s0 end) (a :: l)) with
      ((match f a with Some b => g b | None => s0 end) + lsum (fun a => match f a with Some b => g b | None => s0 end) l).
    rewrite <- IH. cbn [omap list_omap]. destruct (f a) as [b|]; [reflexivity|]. unfold omap. ring.
  Qed.
  Variable (M : srmat F).
  Hypothesis (Hw : wf_pat M) (Hd : wf_diag M) (Hs : wf_sorted M).
  Notation n := (nbrows M).
  Lemma terms_sum i c (g : nat * nat -> F) : (i < n)%nat ->
    lsum g (terms M i c) =
    bsum n (fun t => if decide (t < i /\ t < c)%nat then
      match pos M i t, pos M t c with Some k, Some p => g (k, p) | _, _ => s0 end else s0).
  Proof.
    intros Hi. unfold terms. rewrite lsum_omap.
    rewrite (row_sum M i _ _ (fun _ => True)); auto using sorted_nodup.
    - apply bsum_ext. intros t Ht. rewrite (decide_True (P := True)) by done.
      destruct (pos M i t) as [k|] eqn:E; [|destruct (decide _); reflexivity].
      apply pos_Some in E as [_ E]; [|done]. unfold term. rewrite E.
      destruct (decide (t < Nat.min i c)%nat); destruct (decide (t < i /\ t < c)%nat); try lia; [|reflexivity].
      destruct (pos M t c); reflexivity.
    - intros j [_ Hj]. tauto.
  Qed.
  (** rows of the product of the two factors *)
  Lemma lu_entry (A : nat -> nat -> F) i c : (i < n)%nat -> (c < n)%nat ->
    mprod n (unitlower A) (upper A) i c =
    bsum n (fun t => if decide (t < i /\ t < c)%nat then A i t * A t c else s0) +
    (if (c <? i)%nat then A i c * A c c else A i c).
  Proof.
    intros Hi Hc. unfold mprod.
    rewrite <- (bsum_delta n (Nat.min i c) (fun t => if (c <? i)%nat then A i c * A c c else A i c)) by lia.
    rewrite <- bsum_add. apply bsum_ext. intros t Ht. unfold unitlower, upper.
    destruct (Nat.ltb_spec c i);
      repeat match goal with |- context[decide ?P] => destruct (decide P); try lia end;
      first [ring|replace t with c by lia; ring|replace t with i by lia; ring].
  Qed.
  Lemma blu_entry bs (A D : nat -> nat -> F) i c p q : (i < n)%nat -> (c < n)%nat -> (p < bs)%nat -> (q < bs)%nat ->
    mprod (n * bs) (bunitlower bs A) (bupper bs A D) (i * bs + p) (c * bs + q) =
    bsum n (fun t => if decide (t < i /\ t < c)%nat then
      bsum bs (fun u => A (i * bs + p)%nat (t * bs + u)%nat * A (t * bs + u)%nat (c * bs + q)%nat) else s0) +
    (if (c <? i)%nat then bsum bs (fun u => A (i * bs + p)%nat (c * bs + u)%nat * D (c * bs + u)%nat (c * bs + q)%nat)
     else if decide (i = c) then D (i * bs + p)%nat (c * bs + q)%nat else A (i * bs + p)%nat (c * bs + q)%nat).
  Proof.
    intros Hi Hc Hp Hq. unfold mprod. rewrite bsum_flat.
    set (last := if (c <? i)%nat then _ else _).
    rewrite <- (bsum_delta n (Nat.min i c) (fun t => last)) by lia.
    rewrite <- bsum_add. apply bsum_ext. intros t Ht. unfold bunitlower, bupper.
    assert (forall u, (u < bs)%nat -> (t * bs + u) / bs = t)%nat as Hdiv by (intros; apply flat_div; auto).
    destruct (decide (t < i /\ t < c)%nat) as [[H1 H2]|Hn].
    - rewrite decide_False by lia. transitivity (bsum bs (fun u => A (i * bs + p)%nat (t * bs + u)%nat * A (t * bs + u)%nat (c * bs + q)%nat)); [|ring].
      apply bsum_ext. intros u Hu. rewrite !flat_div by done. rewrite !decide_True by lia. reflexivity.
    - destruct (decide (t = Nat.min i c)) as [E|E].
      + destruct (Nat.ltb_spec c i) as [Hlt|Hge].
        * assert (t = c) as -> by lia. unfold last.
          match goal with |- _ = s0 + ?x => transitivity x; [|ring] end.
          apply bsum_ext. intros u Hu. rewrite !flat_div by done.
          rewrite decide_True, decide_False, decide_True by lia. reflexivity.
        * assert (t = i) as -> by lia. unfold last. rewrite (bsum_single bs p).
          -- rewrite !flat_div by done. rewrite decide_False, decide_True by lia.
             destruct (decide (i = c)); [rewrite decide_False by lia|rewrite decide_True by lia]; ring.
          -- exact Hp.
          -- intros u Hu Hup. rewrite !flat_div by done. rewrite decide_False, decide_False by lia. ring.
      + rewrite bsum_zero; [ring|]. intros u Hu. rewrite !flat_div by done.
        destruct (decide (c < t)%nat).
        * rewrite (decide_False (P := (t < c)%nat)), (decide_False (P := t = c)) by lia. ring.
        * rewrite (decide_False (P := (t < i)%nat)) by lia.
          rewrite (decide_False (P := (i * bs + p = t * bs + u)%nat)); [ring|].
          rewrite flat_eq by done. lia.
  Qed.
End Sums.

(** ** Scalar *)
Section Scalar.
  Context {F : Type} {O : SOps F} {R : CRing F}.
  Add Ring Fr2 : cring.
  Open Scope s_scope.
  Variable (M : srmat F).
  Hypothesis (Hw : wf_pat M) (Hd : wf_diag M) (Hs : wf_sorted M).
  Notation n := (nbrows M).
  Notation N := (nnz M).
  Notation pl := (positions M).
  Variables (scale : option (list F)) (ilu : list F).
  Hypothesis (Hv : length (vals M) = N) (Hsc : scale_ok scale n) (Hl : length ilu = N).
  Notation A := (scaled_mat scale (dense M)).
  Notation B := (entry M ilu).

  Lemma dense_pos i c j : pos M i c = Some j -> dense M i c = vat (vals M) j.
  Proof. unfold dense, vat. intros ->. reflexivity. Qed.
  Lemma entry_pos i c j : pos M i c = Some j -> B i c = vat ilu j.
  Proof. unfold entry. intros ->. reflexivity. Qed.
  Lemma pos_self j : (j < N)%nat -> pos M (rowof M j) (col M j) = Some j.
  Proof. intros Hj. apply pos_of; [apply sorted_nodup, Hs|]. apply (inrow_rowof M j Hw Hj). Qed.
  Lemma scaled_entry_val j : (j < N)%nat ->
    scaled_entry M scale (rowof M j) j = Ok (A (rowof M j) (col M j)).
  Proof.
    intros Hj. unfold scaled_entry, scaled_mat. pose proof (inrow_rowof M j Hw Hj) as [Hr _].
    rewrite (dense_pos _ _ j (pos_self j Hj)).
    rewrite vat_get by lia. cbn [bind]. destruct scale as [s|]; [|reflexivity]. simpl in Hsc.
    rewrite vat_get by lia. cbn [bind].
    rewrite (proj2 (get_Some _ _ _) (wf_bcolind M j Hw Hj)). cbn [bind].
    pose proof (wf_col M Hw j Hj). rewrite vat_get by lia. cbn [bind]. f_equal. ring.
  Qed.
  Definition below (j : nat) : F :=
    bsum n (fun t => if decide (t < rowof M j /\ t < col M j)%nat then B (rowof M j) t * B t (col M j) else s0).
  Lemma exec_entry_sum j : (j < N)%nat ->
    exec ilu (entry_sum M pl scale (rowof M j) j) = Ok (A (rowof M j) (col M j) - below j, ilu).
  Proof.
    intros Hj.
    destruct (exec_wp ilu (entry_sum M pl scale (rowof M j) j) (fun a => a = A (rowof M j) (col M j) - below j))
      as (a & He & Ha); [|rewrite He, Ha; reflexivity].
    unfold entry_sum. apply wp_bind, wp_plift. rewrite scaled_entry_val by done. cbn [ok].
    apply wp_bind, wp_plift, ok_pl; [lia|].
    apply wp_bind, wp_plift, ok_pl; [lia|].
    set (f := fun kp : nat * nat => vat ilu (fst kp) * vat ilu (snd kp)).
    set (base := length (allterms M j)).
    apply (wp_pfor_post _ _ _ _ _ _ (fun k s => s = A (rowof M j) (col M j) - lsum f (take (k - base) (tms M j)))).
    - rewrite (allterms_next M j). lia.
    - rewrite Nat.sub_diag. simpl. ring.
    - intros k s' Hk ->. destruct (pl_loop M j k Hj Hk) as (a & b & Ha & Hb & Hab). fold base in Hab.
      destruct (tms_before M Hw Hs j a b Hj ltac:(eapply elem_of_list_lookup_2; eauto)) as [H1 H2].
      apply wp_bind, wp_plift. eapply ok_get; [exact Ha|].
      apply wp_bind, wp_plift. eapply ok_get; [exact Hb|].
      apply wp_bind, wp_pread; [eexists; apply vat_Some; lia|]. intros x Hx.
      apply wp_bind, wp_pread; [eexists; apply vat_Some; lia|]. intros y Hy.
      apply vat_eq in Hx, Hy. simpl. replace (k + 1 - base)%nat with (S (k - base)) by (fold base in Hk; lia).
      rewrite (take_S_r _ _ (a, b)) by exact Hab. rewrite lsum_app. simpl. unfold f. simpl. rewrite Hx, Hy. ring.
    - intros s' ->. f_equal. rewrite (allterms_next M j). fold base.
      replace (base + length (tms M j) - base)%nat with (length (tms M j)) by lia. rewrite firstn_all.
      unfold tms. rewrite terms_sum; auto; [|apply (inrow_rowof M j Hw Hj)].
      unfold below. apply bsum_ext. intros t Ht. destruct (decide _); [|reflexivity].
      unfold entry. destruct (pos M (rowof M j) t), (pos M t (col M j)); unfold f; simpl; ring.
  Qed.
  Lemma product_entry j : (j < N)%nat ->
    mprod n (unitlower B) (upper B) (rowof M j) (col M j) =
    below j + (if (col M j <? rowof M j)%nat then vat ilu j * vat ilu (dg M (col M j)) else vat ilu j).
  Proof.
    intros Hj. pose proof (inrow_rowof M j Hw Hj) as [Hr _]. pose proof (wf_col M Hw j Hj) as Hc.
    rewrite (lu_entry M) by done. unfold below. rewrite (entry_pos _ _ j (pos_self j Hj)).
    rewrite (entry_diag M ilu Hd Hs) by done. reflexivity.
  Qed.
  Lemma dg_N i : (i < n)%nat -> (dg M i < N)%nat.
  Proof. intros Hi. destruct Hd as [_ H]. apply (inrow_lt M i _ Hw). split; [exact Hi|apply H, Hi]. Qed.
  Lemma exec_factor_entry j : (j < N)%nat ->
    exec ilu (factor_entry M pl scale (rowof M j) j) =
    Ok ([if (col M j <? rowof M j)%nat then (A (rowof M j) (col M j) - below j) / vat ilu (dg M (col M j))
         else A (rowof M j) (col M j) - below j], ilu).
  Proof.
    intros Hj. pose proof (wf_col M Hw j Hj) as Hc. unfold factor_entry. rewrite exec_bind, exec_entry_sum by done. cbn [bind].
    rewrite (proj2 (get_Some _ _ _) (wf_bcolind M j Hw Hj)). cbn [plift pbind].
    destruct (col M j <? rowof M j)%nat; [|reflexivity].
    rewrite (proj2 (get_Some _ _ _) (wf_diagind M _ Hd Hc)). cbn [plift pbind].
    unfold pread. cbn [pbind exec]. rewrite (vat_get ilu) by (pose proof (dg_N _ Hc); lia). reflexivity.
  Qed.
  Lemma exec_res_entry j : (j < N)%nat ->
    exec ilu (res_entry M pl scale (rowof M j) j) =
    Ok (A (rowof M j) (col M j) - mprod n (unitlower B) (upper B) (rowof M j) (col M j), ilu).
  Proof.
    intros Hj. pose proof (wf_col M Hw j Hj) as Hc. rewrite product_entry by done.
    unfold res_entry. rewrite exec_bind, exec_entry_sum by done. cbn [bind].
    rewrite (proj2 (get_Some _ _ _) (wf_bcolind M j Hw Hj)). cbn [plift pbind].
    unfold pread at 1. cbn [pbind exec]. rewrite (vat_get ilu) by lia. cbn [bind].
    destruct (col M j <? rowof M j)%nat; [|cbn [exec]; match goal with |- Ok (?a, _) = Ok (?b, _) => replace a with b by ring; reflexivity end].
    rewrite (proj2 (get_Some _ _ _) (wf_diagind M _ Hd Hc)). cbn [plift pbind].
    unfold pread. cbn [pbind exec]. rewrite (vat_get ilu) by (pose proof (dg_N _ Hc); lia). cbn [bind exec]. match goal with |- Ok (?a, _) = Ok (?b, _) => replace a with b by ring; reflexivity end.
  Qed.
End Scalar.
Section ScalarField.
  Context {F : Type} {O : SOps F} {R : Field F}.
  Add Ring Fr3 : cring.
  Open Scope s_scope.
  Variable (M : srmat F).
  Hypothesis (Hw : wf_pat M) (Hd : wf_diag M) (Hs : wf_sorted M).
  Notation n := (nbrows M).
  Notation N := (nnz M).
  Variables (scale : option (list F)) (ilu : list F).
  Hypothesis (Hv : length (vals M) = N) (Hsc : scale_ok scale n) (Hl : length ilu = N).
  Notation A := (scaled_mat scale (dense M)).
  Notation B := (entry M ilu).
  Lemma div_eq (x a d : F) : d <> s0 -> x = a / d <-> x * d = a.
  Proof.
    intros H. split; [intros ->; apply field_div, H|]. intros <-.
    pose proof (field_div s1 d H) as H1. pose proof (field_div (x * d) d H) as H2.
    transitivity (x * d * (s1 / d)).
    - transitivity (x * (s1 / d * d)); [rewrite H1; ring|ring].
    - rewrite <- H2 at 1. transitivity (x * d / d * (s1 / d * d)); [ring|rewrite H1; ring].
  Qed.
  (** the product matches the (scaled) matrix at all stored positions *)
  Definition matches (n : nat) (L U A : nat -> nat -> F) (stored : nat -> nat -> Prop) : Prop :=
    forall i c, (i < n)%nat -> (c < n)%nat -> stored i c -> mprod n L U i c = A i c.
  Lemma scalar_consistent : (forall i, (i < n)%nat -> B i i <> s0) ->
    consistent 1 M (factor_entry M (positions M) scale) ilu <->
    matches n (unitlower B) (upper B) A (fun i c => pos M i c <> None).
  Proof.
    intros Hp. unfold consistent, matches.
    assert (forall j, (j < N)%nat -> fix_at 1 (entC M (factor_entry M (positions M) scale)) ilu j <->
      mprod n (unitlower B) (upper B) (rowof M j) (col M j) = A (rowof M j) (col M j)) as H.
    { intros j Hj. pose proof (wf_col M Hw j Hj) as Hc.
      rewrite (fix_at_1 (entC M (factor_entry M (positions M) scale)) ilu j _ (exec_factor_entry M Hw Hd Hs scale ilu Hv Hsc Hl j Hj)) by lia.
      rewrite (product_entry M Hw Hd Hs ilu) by done.
      destruct (Nat.ltb_spec (col M j) (rowof M j)) as [Hlt|Hge].
      - rewrite div_eq by (rewrite <- (entry_diag M ilu Hd Hs) by done; apply Hp, Hc). apply sub_eq.
      - apply sub_eq. }
    split.
    - intros [_ Hf] i c Hi Hc Hpos. destruct (pos M i c) as [j|] eqn:E; [|congruence].
      apply pos_Some in E as [E1 E2]; [|done]. pose proof (inrow_lt M i j Hw E1) as Hj.
      specialize (Hf j Hj). apply H in Hf; [|done]. rewrite (rowof_inrow M i j Hw E1), E2 in Hf. exact Hf.
    - intros Hm. split; [lia|]. intros j Hj. apply H; [done|]. apply Hm.
      + apply (inrow_rowof M j Hw Hj).
      + apply (wf_col M Hw j Hj).
      + rewrite (pos_self M Hw Hs j Hj). discriminate.
  Qed.
End ScalarField.

(** ** Block *)
Section Block.
  Context {F : Type} {O : SOps F} {R : CRing F}.
  Add Ring Fr4 : cring.
  Open Scope s_scope.
  Variables (so : storage) (bs : nat) (M : srmat F).
  Hypothesis (Hw : wf_pat M) (Hd : wf_diag M) (Hs : wf_sorted M).
  Notation n := (nbrows M).
  Notation N := (nnz M).
  Notation bb := (bs * bs)%nat.
  Notation pl := (positions M).
  Variables (inv : list F -> list F) (scale : option (list F)) (ilu : list F).
  Hypothesis (Hinv : forall b, length b = bb -> length (inv b) = bb).
  Hypothesis (Hv : length (vals M) = (N * bb)%nat) (Hsc : scale_ok scale (n * bs)) (Hl : length ilu = (N * bb)%nat).
  Notation A := (scaled_mat scale (bdense so bs M)).
  Notation B := (bentry so bs M ilu).
  (** a block as a matrix *)
  Definition bl (b : list F) (p q : nat) : F := bent so bs b 0 p q.

  Lemma bl_vat b p q : bl b p q = vat b (lay so bs p q).
  Proof. unfold bl, bent, vat. f_equal. Qed.
  Lemma bent_vat vs j p q : bent so bs vs j p q = vat vs (j * bb + lay so bs p q).
  Proof. unfold bent, vat. f_equal. Qed.
  Lemma bl_ext b b' : length b = bb -> length b' = bb -> (forall p q, (p < bs)%nat -> (q < bs)%nat -> bl b p q = bl b' p q) -> b = b'.
  Proof.
    intros H1 H2 H. apply list_eq_same_length with (n := bb); auto. intros e x y He Hx Hy.
    destruct (unlay_lt so bs e He) as [Hp Hq]. specialize (H _ _ Hp Hq). rewrite !bl_vat, lay_unlay in H by done.
    apply vat_eq in Hx, Hy. congruence.
  Qed.
  Lemma bl_mapr (f : nat -> res F) (g : nat -> nat -> F) :
    (forall p q, (p < bs)%nat -> (q < bs)%nat -> f (lay so bs p q) = Ok (g p q)) ->
    exists b, mapr f (seq 0 bb) = Ok b /\ length b = bb /\ forall p q, (p < bs)%nat -> (q < bs)%nat -> bl b p q = g p q.
  Proof.
    intros H.
    assert (ok (mapr f (seq 0 bb)) (fun b => length b = length (seq 0 bb) /\
      forall k x, b !! k = Some x -> (k < bb)%nat -> x = g (fst (unlay so bs k)) (snd (unlay so bs k)))) as Hm.
    { apply (ok_mapr f (seq 0 bb) (fun k x => (k < bb)%nat -> x = g (fst (unlay so bs k)) (snd (unlay so bs k)))).
      intros k a Hk. apply lookup_seq in Hk as [-> Hk]. simpl.
      destruct (unlay_lt so bs k Hk) as [Hp Hq]. rewrite <- (lay_unlay so bs k Hk) at 1. rewrite H by done. simpl. auto. }
    apply ok_inv in Hm as (b & Hb & Hlen & Hx). rewrite seq_length in Hlen. exists b. split; [exact Hb|]. split; [exact Hlen|].
    intros p q Hp Hq. rewrite bl_vat. pose proof (lay_lt so bs p q Hp Hq).
    rewrite (Hx (lay so bs p q) (vat b (lay so bs p q))); [|apply vat_Some; lia|lia].
    rewrite unlay_lay by done. reflexivity.
  Qed.
  Lemma bl_pmap (f : nat -> @P F F) (g : nat -> nat -> F) :
    (forall p q, (p < bs)%nat -> (q < bs)%nat -> wp (fun l v => ilu !! l = Some v) nowr (f (lay so bs p q)) (fun x => x = g p q)) ->
    wp (fun l v => ilu !! l = Some v) nowr (pmap f (seq 0 bb))
      (fun b => length b = bb /\ forall p q, (p < bs)%nat -> (q < bs)%nat -> bl b p q = g p q).
  Proof.
    intros H. eapply wp_post.
    - apply (wp_pmap _ _ _ _ (fun k x => (k < bb)%nat -> x = g (fst (unlay so bs k)) (snd (unlay so bs k)))).
      intros k a Hk. apply lookup_seq in Hk as [-> Hk]. simpl.
      destruct (unlay_lt so bs k Hk) as [Hp Hq]. rewrite <- (lay_unlay so bs k Hk) at 1.
      eapply wp_post; [apply H; auto|]. intros x Hx _. exact Hx.
    - intros b [Hlen Hx]. rewrite seq_length in Hlen. split; [exact Hlen|].
      intros p q Hp Hq. rewrite bl_vat. pose proof (lay_lt so bs p q Hp Hq).
      rewrite (Hx (lay so bs p q) (vat b (lay so bs p q))); [|apply vat_Some; lia|lia].
      rewrite unlay_lay by done. reflexivity.
  Qed.
  Lemma getblk_val vs j : (j * bb + bb <= length vs)%nat ->
    exists b, getblk vs (j * bb) bb = Ok b /\ length b = bb /\ forall p q, (p < bs)%nat -> (q < bs)%nat -> bl b p q = bent so bs vs j p q.
  Proof.
    intros Hj. unfold getblk. apply bl_mapr. intros p q Hp Hq. pose proof (lay_lt so bs p q Hp Hq).
    rewrite vat_get by lia. rewrite bent_vat. reflexivity.
  Qed.
  Lemma bdense_flat i p c q : (p < bs)%nat -> (q < bs)%nat ->
    bdense so bs M (i * bs + p)%nat (c * bs + q)%nat = match pos M i c with Some j => bent so bs (vals M) j p q | None => s0 end.
  Proof. intros Hp Hq. change (bdense so bs M) with (bentry so bs M (vals M)). apply bentry_flat; auto. Qed.
  Lemma scaleBlock_val s i c b : length s = (n * bs)%nat -> (i < n)%nat -> (c < n)%nat -> length b = bb ->
    exists b', scaleBlock so bs s i c b = Ok b' /\ length b' = bb /\ forall p q, (p < bs)%nat -> (q < bs)%nat ->
      bl b' p q = vat s (i * bs + p) * bl b p q * vat s (c * bs + q).
  Proof.
    intros Hsl Hi Hc Hb. unfold scaleBlock. apply bl_mapr. intros p q Hp Hq. pose proof (lay_lt so bs p q Hp Hq).
    rewrite unlay_lay by done. simpl. rewrite !vat_get by nia. simpl. f_equal. rewrite bl_vat. ring.
  Qed.
  Lemma scaled_block_val j : (j < N)%nat ->
    exists b, scaled_block so bs M scale (rowof M j) j = Ok b /\ length b = bb /\ forall p q, (p < bs)%nat -> (q < bs)%nat ->
      bl b p q = A (rowof M j * bs + p)%nat (col M j * bs + q)%nat.
  Proof.
    intros Hj. unfold scaled_block, scaled_mat. pose proof (inrow_rowof M j Hw Hj) as [Hr _].
    rewrite (proj2 (get_Some _ _ _) (wf_bcolind M j Hw Hj)). cbn [bind].
    destruct (getblk_val (vals M) j ltac:(nia)) as (b & -> & Hb & Hbv). cbn [bind].
    assert (forall p q, (p < bs)%nat -> (q < bs)%nat -> bl b p q = bdense so bs M (rowof M j * bs + p)%nat (col M j * bs + q)%nat) as Hb2.
    { intros p q Hp Hq. rewrite bdense_flat, (pos_self M Hw Hs j Hj) by done. auto. }
    destruct scale as [s|]; [|exists b; auto]. simpl in Hsc.
    destruct (scaleBlock_val s (rowof M j) (col M j) b Hsc Hr (wf_col M Hw j Hj) Hb) as (b' & Hb' & Hlen & Hv').
    exists b'. split; [exact Hb'|]. split; [exact Hlen|]. intros p q Hp Hq. rewrite Hv', Hb2 by done. reflexivity.
  Qed.
  Lemma bmatmul_val a b : length a = bb -> length b = bb ->
    exists c, bmatmul so bs a b = Ok c /\ length c = bb /\ forall p q, (p < bs)%nat -> (q < bs)%nat ->
      bl c p q = bsum bs (fun t => bl a p t * bl b t q).
  Proof.
    intros Ha Hb. unfold bmatmul. apply bl_mapr. intros p q Hp Hq. rewrite unlay_lay by done. simpl fst. simpl snd.
    assert (ok (for_ 0 bs (fun t acc => let! x := get a (lay so bs p t) in let! y := get b (lay so bs t q) in Ok (acc + x * y)) s0)
      (fun x => x = bsum bs (fun t => bl a p t * bl b t q))) as H.
    { apply (ok_for_post _ _ _ _ (fun k x => x = bsum k (fun t => bl a p t * bl b t q))); [lia|reflexivity| |auto].
      intros t acc Ht ->. pose proof (lay_lt so bs p t Hp ltac:(lia)). pose proof (lay_lt so bs t q ltac:(lia) Hq).
      rewrite !vat_get by lia. simpl. rewrite Nat.add_comm. simpl. rewrite !bl_vat. reflexivity. }
    apply ok_inv in H as (x & Hx & ->). exact Hx.
  Qed.
  Lemma pbmatmul_val l u : (l < N)%nat -> (u < N)%nat ->
    wp (fun x v => ilu !! x = Some v) nowr (pbmatmul so bs l u) (fun c => length c = bb /\ forall p q, (p < bs)%nat -> (q < bs)%nat ->
      bl c p q = bsum bs (fun t => bent so bs ilu l p t * bent so bs ilu u t q)).
  Proof.
    intros Hlu Hu. unfold pbmatmul. apply bl_pmap. intros p q Hp Hq. rewrite unlay_lay by done. simpl fst. simpl snd.
    apply (wp_pfor_post _ _ _ _ _ _ (fun k x => x = bsum k (fun t => bent so bs ilu l p t * bent so bs ilu u t q))); [lia|reflexivity| |auto].
    intros t acc Ht ->. pose proof (lay_lt so bs p t Hp ltac:(lia)). pose proof (lay_lt so bs t q ltac:(lia) Hq).
    apply wp_bind, wp_pread; [eexists; apply vat_Some; nia|]. intros x Hx.
    apply wp_bind, wp_pread; [eexists; apply vat_Some; nia|]. intros y Hy. apply vat_eq in Hx, Hy.
    simpl. rewrite Nat.add_comm. simpl. rewrite !bent_vat, Hx, Hy. reflexivity.
  Qed.
  Lemma preadblk_val j : (j < N)%nat ->
    wp (fun x v => ilu !! x = Some v) nowr (preadblk bs j) (fun c => length c = bb /\ forall p q, (p < bs)%nat -> (q < bs)%nat ->
      bl c p q = bent so bs ilu j p q).
  Proof.
    intros Hj. unfold preadblk. apply bl_pmap. intros p q Hp Hq. pose proof (lay_lt so bs p q Hp Hq).
    apply wp_pread; [eexists; apply vat_Some; nia|]. intros x Hx. apply vat_eq in Hx. rewrite bent_vat, Hx. reflexivity.
  Qed.
  Lemma bl_vsub a b p q : length a = bb -> length b = bb -> bl (vsub a b) p q = bl a p q - bl b p q.
  Proof. intros Ha Hb. rewrite !bl_vat. apply vat_vsub. lia. Qed.

  Definition bbelow (j p q : nat) : F :=
    bsum n (fun t => if decide (t < rowof M j /\ t < col M j)%nat then
      bsum bs (fun u => B (rowof M j * bs + p)%nat (t * bs + u)%nat * B (t * bs + u)%nat (col M j * bs + q)%nat) else s0).
  Lemma block_sum_val j : (j < N)%nat ->
    wp (fun x v => ilu !! x = Some v) nowr (block_sum so bs M pl scale (rowof M j) j) (fun b => length b = bb /\
      forall p q, (p < bs)%nat -> (q < bs)%nat -> bl b p q = A (rowof M j * bs + p)%nat (col M j * bs + q)%nat - bbelow j p q).
  Proof.
    intros Hj. unfold block_sum. destruct (scaled_block_val j Hj) as (s & -> & Hsl & Hsv).
    apply wp_bind, wp_plift. cbn [ok].
    apply wp_bind, wp_plift, ok_pl; [lia|].
    apply wp_bind, wp_plift, ok_pl; [lia|].
    set (f := fun p q (kp : nat * nat) => bsum bs (fun u => bent so bs ilu (fst kp) p u * bent so bs ilu (snd kp) u q)).
    set (base := length (allterms M j)).
    apply (wp_pfor_post _ _ _ _ _ _ (fun k b => length b = bb /\ forall p q, (p < bs)%nat -> (q < bs)%nat ->
      bl b p q = A (rowof M j * bs + p)%nat (col M j * bs + q)%nat - lsum (f p q) (take (k - base) (tms M j)))).
    - rewrite (allterms_next M j). lia.
    - split; [exact Hsl|]. intros p q Hp Hq. rewrite Hsv by done. rewrite Nat.sub_diag. simpl. ring.
    - intros k s' Hk [Hsl' Hsv']. destruct (pl_loop M j k Hj Hk) as (a & b & Ha & Hb & Hab). fold base in Hab.
      destruct (tms_before M Hw Hs j a b Hj ltac:(eapply elem_of_list_lookup_2; eauto)) as [H1 H2].
      apply wp_bind, wp_plift. eapply ok_get; [exact Ha|].
      apply wp_bind, wp_plift. eapply ok_get; [exact Hb|].
      apply wp_bind. eapply wp_post; [apply pbmatmul_val; lia|]. intros c [Hc Hcv].
      split; [apply vsub_length; auto|]. intros p q Hp Hq. rewrite bl_vsub, Hsv', Hcv by done.
      replace (k + 1 - base)%nat with (S (k - base)) by (fold base in Hk; lia).
      rewrite (take_S_r _ _ (a, b)) by exact Hab. rewrite lsum_app. unfold f at 3. simpl. ring.
    - intros s' [Hsl' Hsv']. split; [exact Hsl'|]. intros p q Hp Hq. rewrite Hsv' by done. f_equal.
      rewrite (allterms_next M j). fold base.
      replace (base + length (tms M j) - base)%nat with (length (tms M j)) by lia. rewrite firstn_all.
      unfold tms. rewrite terms_sum; auto; [|apply (inrow_rowof M j Hw Hj)].
      unfold bbelow. apply bsum_ext. intros t Ht. destruct (decide _); [|reflexivity].
      unfold f. simpl fst. simpl snd.
      destruct (pos M (rowof M j) t) as [k|] eqn:E1; destruct (pos M t (col M j)) as [k'|] eqn:E2;
        [apply bsum_ext|symmetry; apply bsum_zero..];
        intros u Hu; rewrite !bentry_flat, ?E1, ?E2 by done; ring.
  Qed.
  Lemma bproduct_entry D j p q : (j < N)%nat -> (p < bs)%nat -> (q < bs)%nat ->
    mprod (n * bs) (bunitlower bs B) (bupper bs B D) (rowof M j * bs + p) (col M j * bs + q) =
    bbelow j p q +
    (if (col M j <? rowof M j)%nat then bsum bs (fun u => bent so bs ilu j p u * dblock bs D (col M j) u q)
     else if decide (rowof M j = col M j) then dblock bs D (col M j) p q else bent so bs ilu j p q).
  Proof.
    intros Hj Hp Hq. pose proof (inrow_rowof M j Hw Hj) as [Hr _]. pose proof (wf_col M Hw j Hj) as Hc.
    rewrite (blu_entry M) by done. unfold bbelow, dblock. f_equal.
    destruct (Nat.ltb_spec (col M j) (rowof M j)).
    - apply bsum_ext. intros u Hu. rewrite bentry_flat, (pos_self M Hw Hs j Hj) by done. reflexivity.
    - destruct (decide (rowof M j = col M j)) as [E|E]; [rewrite E; reflexivity|].
      rewrite bentry_flat, (pos_self M Hw Hs j Hj) by done. reflexivity.
  Qed.
  Lemma bB_diag i p q : (i < n)%nat -> (p < bs)%nat -> (q < bs)%nat ->
    dblock bs B i p q = bent so bs ilu (dg M i) p q.
  Proof.
    intros Hi Hp Hq. unfold dblock. rewrite bentry_flat by done.
    rewrite (pos_diag M i (sorted_nodup M Hs) Hd Hi). reflexivity.
  Qed.
  Lemma bfactor_entry_val j : (j < N)%nat ->
    exists b, exec ilu (bfactor_entry inv so bs M pl scale (rowof M j) j) = Ok (b, ilu) /\ length b = bb /\
    exists dv, length dv = bb /\
      (forall p q, (p < bs)%nat -> (q < bs)%nat -> bl dv p q = bent so bs ilu (dg M (col M j)) p q) /\
      forall p q, (p < bs)%nat -> (q < bs)%nat -> bl b p q =
       if (col M j <? rowof M j)%nat then
         bsum bs (fun t => (A (rowof M j * bs + p)%nat (col M j * bs + t)%nat - bbelow j p t) * bl (inv dv) t q)
       else A (rowof M j * bs + p)%nat (col M j * bs + q)%nat - bbelow j p q.
  Proof.
    intros Hj. pose proof (wf_col M Hw j Hj) as Hc. pose proof (dg_N M Hw Hd _ Hc).
    set (post := fun b => length b = bb /\ exists dv, length dv = bb /\
      (forall p q, (p < bs)%nat -> (q < bs)%nat -> bl dv p q = bent so bs ilu (dg M (col M j)) p q) /\
      forall p q, (p < bs)%nat -> (q < bs)%nat -> bl b p q =
       if (col M j <? rowof M j)%nat then
         bsum bs (fun t => (A (rowof M j * bs + p)%nat (col M j * bs + t)%nat - bbelow j p t) * bl (inv dv) t q)
       else A (rowof M j * bs + p)%nat (col M j * bs + q)%nat - bbelow j p q).
    destruct (exec_wp ilu (bfactor_entry inv so bs M pl scale (rowof M j) j) post) as (b & He & Hb1 & Hb2);
      [|exists b; auto].
    unfold bfactor_entry. apply wp_bind. eapply wp_post; [apply block_sum_val, Hj|]. intros s [Hsl Hsv].
    apply wp_bind, wp_plift. eapply ok_get; [apply wf_bcolind; auto|].
    destruct (col M j <? rowof M j)%nat eqn:E.
    - apply wp_bind, wp_plift. apply (ok_diagind M Hd); [exact Hc|].
      apply wp_bind. eapply wp_post; [apply preadblk_val; lia|]. intros dv [Hdl Hdv].
      apply wp_plift. destruct (bmatmul_val s (inv dv) Hsl (Hinv dv Hdl)) as (c & -> & Hcl & Hcv). cbn [ok].
      split; [exact Hcl|]. exists dv. split; [exact Hdl|]. split; [exact Hdv|]. intros p q Hp Hq. rewrite ?E, Hcv by done.
      apply bsum_ext. intros t Ht. rewrite Hsv by done. reflexivity.
    - split; [exact Hsl|]. destruct (getblk_val ilu (dg M (col M j)) ltac:(nia)) as (dv & _ & Hdl & Hdv).
      exists dv. split; [exact Hdl|]. split; [exact Hdv|]. intros p q Hp Hq. rewrite ?E. auto.
  Qed.
  Lemma bres_entry_val j : (j < N)%nat ->
    exists b, exec ilu (bres_entry so bs M pl scale (rowof M j) j) = Ok (b, ilu) /\ length b = bb /\
      forall p q, (p < bs)%nat -> (q < bs)%nat -> bl b p q =
        A (rowof M j * bs + p)%nat (col M j * bs + q)%nat -
        mprod (n * bs) (bunitlower bs B) (bupper bs B B) (rowof M j * bs + p) (col M j * bs + q).
  Proof.
    intros Hj. pose proof (wf_col M Hw j Hj) as Hc. pose proof (dg_N M Hw Hd _ Hc).
    pose proof (inrow_rowof M j Hw Hj) as [Hr _].
    destruct (exec_wp ilu (bres_entry so bs M pl scale (rowof M j) j) (fun b => length b = bb /\
      forall p q, (p < bs)%nat -> (q < bs)%nat -> bl b p q =
        A (rowof M j * bs + p)%nat (col M j * bs + q)%nat -
        mprod (n * bs) (bunitlower bs B) (bupper bs B B) (rowof M j * bs + p) (col M j * bs + q)))
      as (b & He & Hb1 & Hb2); [|exists b; auto].
    unfold bres_entry. apply wp_bind. eapply wp_post; [apply block_sum_val, Hj|]. intros s [Hsl Hsv].
    apply wp_bind, wp_plift. eapply ok_get; [apply wf_bcolind; auto|].
    destruct (col M j <? rowof M j)%nat eqn:E.
    - apply wp_bind, wp_plift. apply (ok_diagind M Hd); [exact Hc|].
      apply wp_bind. eapply wp_post; [apply pbmatmul_val; lia|]. intros c [Hcl Hcv].
      split; [apply vsub_length; auto|]. intros p q Hp Hq. rewrite bl_vsub, Hsv, Hcv by done.
      rewrite bproduct_entry, ?E by done.
      rewrite (bsum_ext bs _ (fun u => bent so bs ilu j p u * dblock bs B (col M j) u q)); [ring|].
      intros u Hu. rewrite bB_diag by done. reflexivity.
    - apply wp_bind. eapply wp_post; [apply preadblk_val; lia|]. intros c [Hcl Hcv].
      split; [apply vsub_length; auto|]. intros p q Hp Hq. rewrite bl_vsub, Hsv, Hcv by done.
      rewrite bproduct_entry, ?E by done. destruct (decide (rowof M j = col M j)) as [Erc|]; [|ring].
      rewrite bB_diag by done.
      replace (dg M (col M j)) with j; [ring|]. pose proof (pos_self M Hw Hs j Hj) as Hp1.
      rewrite Erc in Hp1. rewrite (pos_diag M _ (sorted_nodup M Hs) Hd Hc) in Hp1. congruence.
  Qed.

  Definition bmatches (D : nat -> nat -> F) : Prop :=
    forall I J, (I < n * bs)%nat -> (J < n * bs)%nat -> pos M (I / bs) (J / bs) <> None ->
      mprod (n * bs) (bunitlower bs B) (bupper bs B D) I J = A I J.

  (** X = Y D^-1 iff X D = Y *)
  Lemma mat_div (X Y D E : nat -> nat -> F) : is_inverse bs D E ->
    (forall p q, (p < bs)%nat -> (q < bs)%nat -> X p q = bsum bs (fun t => Y p t * E t q)) <->
    (forall p q, (p < bs)%nat -> (q < bs)%nat -> bsum bs (fun t => X p t * D t q) = Y p q).
  Proof.
    intros Hinv'.
    assert (forall (Z P Q : nat -> nat -> F) p q, (p < bs)%nat -> (q < bs)%nat ->
      (forall u v, (u < bs)%nat -> (v < bs)%nat -> mprod bs P Q u v = ident u v) ->
      bsum bs (fun t => bsum bs (fun u => Z p u * P u t) * Q t q) = Z p q) as Hassoc.
    { intros Z P Q p q Hp Hq HPQ.
      transitivity (bsum bs (fun u => Z p u * mprod bs P Q u q)).
      - rewrite (bsum_ext bs _ (fun t => bsum bs (fun u => Z p u * P u t * Q t q))).
        + rewrite bsum_swap. apply bsum_ext. intros u Hu. unfold mprod. rewrite <- bsum_mul_l.
          apply bsum_ext. intros t Ht. ring.
        + intros t Ht. rewrite <- bsum_mul_r. reflexivity.
      - rewrite (bsum_single bs q).
        + rewrite HPQ by done. unfold ident. rewrite decide_True by done. ring.
        + exact Hq.
        + intros u Hu Huq. rewrite HPQ by done. unfold ident. rewrite decide_False by done. ring. }
    split; intros H p q Hp Hq.
    - rewrite (bsum_ext bs _ (fun t => bsum bs (fun u => Y p u * E u t) * D t q)).
      + apply (Hassoc Y E D p q Hp Hq). intros u v Hu Hv'. apply (Hinv' u v Hu Hv').
      + intros t Ht. rewrite H by done. reflexivity.
    - rewrite (bsum_ext bs (fun t => Y p t * E t q) (fun t => bsum bs (fun u => X p u * D u t) * E t q)).
      + symmetry. apply (Hassoc X D E p q Hp Hq). intros u v Hu Hv'. apply (Hinv' u v Hu Hv').
      + intros t Ht. rewrite H by done. reflexivity.
  Qed.
  Lemma is_inverse_ext k (X X' Y : nat -> nat -> F) :
    (forall p q, (p < k)%nat -> (q < k)%nat -> X p q = X' p q) -> is_inverse k X Y -> is_inverse k X' Y.
  Proof.
    intros H HI i j Hi Hj. destruct (HI i j Hi Hj) as [H1 H2].
    split; [rewrite <- H1|rewrite <- H2]; apply bsum_ext; intros t Ht; rewrite H by done; reflexivity.
  Qed.
  Lemma fix_at_block (C : nat -> @P F (list F)) j b :
    exec ilu (C j) = Ok (b, ilu) -> length b = bb -> (j < N)%nat ->
    fix_at bb C ilu j <-> forall p q, (p < bs)%nat -> (q < bs)%nat -> bent so bs ilu j p q = bl b p q.
  Proof.
    intros He Hb Hj. rewrite (fix_at_bs bb C ilu j b He Hb) by nia. split.
    - intros H p q Hp Hq. rewrite bent_vat, bl_vat. apply H, lay_lt; auto.
    - intros H e He'. destruct (unlay_lt so bs e He') as [Hp Hq]. specialize (H _ _ Hp Hq).
      rewrite bent_vat, bl_vat, lay_unlay in H by done. exact H.
  Qed.
  Lemma block_consistent : inverse_oracle so bs inv ->
    (forall i, (i < n)%nat -> exists Y, is_inverse bs (dblock bs B i) Y) ->
    consistent bb M (bfactor_entry inv so bs M pl scale) ilu <-> bmatches B.
  Proof.
    intros Hor Hp.
    assert (forall j, (j < N)%nat -> fix_at bb (entC M (bfactor_entry inv so bs M pl scale)) ilu j <->
      forall p q, (p < bs)%nat -> (q < bs)%nat ->
      mprod (n * bs) (bunitlower bs B) (bupper bs B B) (rowof M j * bs + p) (col M j * bs + q) =
      A (rowof M j * bs + p)%nat (col M j * bs + q)%nat) as H.
    { intros j Hj. pose proof (wf_col M Hw j Hj) as Hc.
      destruct (bfactor_entry_val j Hj) as (b & He & Hbl & dv & Hdl & Hdv & Hbv).
      rewrite (fix_at_block (entC M (bfactor_entry inv so bs M pl scale)) j b He Hbl Hj).
      assert (is_inverse bs (dblock bs B (col M j)) (bl (inv dv))) as Hi.
      { destruct (Hp _ Hc) as [Y HY]. destruct (Hor dv Hdl) as [_ Ho].
        assert (is_inverse bs (bl dv) (bl (inv dv))) as Hi.
        { apply (Ho Y). eapply is_inverse_ext; [|exact HY]. intros p q Hp' Hq. rewrite bB_diag, <- Hdv by done. reflexivity. }
        eapply is_inverse_ext; [|exact Hi]. intros p q Hp' Hq. rewrite bB_diag, <- Hdv by done. reflexivity. }
      destruct (Nat.ltb_spec (col M j) (rowof M j)) as [Hlt|Hge].
      - transitivity (forall p q, (p < bs)%nat -> (q < bs)%nat -> bent so bs ilu j p q =
          bsum bs (fun t => (A (rowof M j * bs + p)%nat (col M j * bs + t)%nat - bbelow j p t) * bl (inv dv) t q)).
        { split; intros HH p q Hp' Hq; specialize (HH p q Hp' Hq); rewrite Hbv in * by done; exact HH. }
        rewrite (mat_div (fun p q => bent so bs ilu j p q)
          (fun p t => A (rowof M j * bs + p)%nat (col M j * bs + t)%nat - bbelow j p t) _ _ Hi).
        split; intros HH p q Hp' Hq; specialize (HH p q Hp' Hq);
          rewrite bproduct_entry in * by done; destruct (Nat.ltb_spec (col M j) (rowof M j)); try lia.
        + rewrite HH. ring.
        + rewrite <- HH. ring.
      - split; intros HH p q Hp' Hq; specialize (HH p q Hp' Hq); rewrite Hbv in * by done;
          rewrite bproduct_entry in * by done; destruct (Nat.ltb_spec (col M j) (rowof M j)); try lia.
        + destruct (decide (rowof M j = col M j)) as [Erc|]; [|rewrite HH; ring].
          rewrite bB_diag by done. replace (dg M (col M j)) with j; [rewrite HH; ring|].
          pose proof (pos_self M Hw Hs j Hj) as Hp1.
          rewrite Erc in Hp1. rewrite (pos_diag M _ (sorted_nodup M Hs) Hd Hc) in Hp1. congruence.
        + destruct (decide (rowof M j = col M j)) as [Erc|]; [|rewrite <- HH; ring].
          rewrite bB_diag in HH by done. replace (dg M (col M j)) with j in HH; [rewrite <- HH; ring|].
          pose proof (pos_self M Hw Hs j Hj) as Hp1.
          rewrite Erc in Hp1. rewrite (pos_diag M _ (sorted_nodup M Hs) Hd Hc) in Hp1. congruence. }
    unfold consistent, bmatches. split.
    - intros [_ Hf] I J HI HJ Hpos.
      destruct (unflat bs n I HI) as (i & p & -> & Hi & Hp'). destruct (unflat bs n J HJ) as (c & q & -> & Hc & Hq).
      rewrite !flat_div in Hpos by done.
      destruct (pos M i c) as [j|] eqn:E; [|congruence].
      apply pos_Some in E as [E1 E2]; [|done]. pose proof (inrow_lt M _ j Hw E1) as Hj.
      specialize (Hf j Hj). rewrite H in Hf by done. specialize (Hf _ _ Hp' Hq).
      rewrite (rowof_inrow M _ j Hw E1), E2 in Hf. exact Hf.
    - intros Hm. split; [lia|]. intros j Hj. apply H; [done|]. intros p q Hp' Hq.
      pose proof (inrow_rowof M j Hw Hj) as [Hr _]. pose proof (wf_col M Hw j Hj) as Hc.
      apply Hm; [nia|nia|]. rewrite !flat_div by done. rewrite (pos_self M Hw Hs j Hj). discriminate.
  Qed.
End Block.
