(** * RoundFactor: one entry of the incomplete factorisation, with rounding errors *)
From Coq Require Import QArith.Qcanon Field.
From Verif Require Import Base Alg Inst Rounding RoundFacts RoundSolve SRMatrix Async AsyncTheory AsyncSystem Nd Kernels KernelFacts
  Helpers IluPattern IluPatternFacts IluApply IluApplyFacts TriSpec TriFacts IluApplyProofs Sgs SgsForms Chains IluApplyMain
  IluFactor IluFactorFacts IluFactorProofs Reduce ReduceFactor.

Open Scope Qc_scope.

Section Lists.
  Lemma omap_cons_eq {A B} (f : A -> option B) a l :
    omap f (a :: l) = match f a with Some b => b :: omap f l | None => omap f l end.
  Proof. reflexivity. Qed.
  Lemma omap_length_lt {A B} (f : A -> option B) l x : x ∈ l -> f x = None -> (length (omap f l) < length l)%nat.
  Proof.
    assert (forall l, length (omap f l) <= length l)%nat as Hle.
    { clear. induction l as [|a l IH]; [reflexivity|]. rewrite omap_cons_eq. destruct (f a); cbn [length]; lia. }
    intros Hx Hf. induction l as [|a l IH]; [inversion Hx|]. rewrite omap_cons_eq. apply elem_of_cons in Hx as [<-|Hx].
    - rewrite Hf. cbn [length]. specialize (Hle l). lia.
    - specialize (IH Hx). destruct (f a); cbn [length]; lia.
  Qed.
  Lemma term_nodup {A} (M : srmat A) b c l : NoDup l -> NoDup (omap (term M b c) l).*1.
  Proof.
    assert (forall l k, k ∈ (omap (term M b c) l).*1 -> k ∈ l) as Hin.
    { intros l' k Hk. apply elem_of_list_fmap in Hk as ([k' p] & -> & Hk). apply elem_of_list_omap in Hk as (x & Hx & Ht).
      unfold term in Ht. destruct (decide _); [|discriminate]. destruct (pos M (col M x) c); [|discriminate]. injection Ht as <- <-. exact Hx. }
    induction 1 as [|a l Ha Hl IH]; [constructor|]. rewrite omap_cons_eq. destruct (term M b c a) as [[k p]|] eqn:E; [|exact IH].
    assert (k = a) as ->.
    { unfold term in E. destruct (decide _); [|discriminate]. destruct (pos M (col M a) c); [|discriminate]. injection E as <- <-. reflexivity. }
    cbn [fmap list_fmap fst]. constructor; [|exact IH]. intros Hk. apply Ha, Hin, Hk.
  Qed.
  (** factors listed along the terms, as a function of the position *)
  Lemma zip_factors (f : nat * nat -> Qc) (P : Qc -> Prop) l ts : P 1 -> NoDup l.*1 -> length ts = length l -> (forall t, t ∈ ts -> P t) ->
    exists T : nat -> Qc, (forall k, P (T k)) /\
      lsum (fun x => f x.1 * x.2) (zip l ts) = lsum (fun kp => f kp * T kp.1) l.
  Proof.
    intros P1. revert ts. induction l as [|[k p] l IH]; intros ts Hnd Hlen HP.
    - exists (fun _ => 1). split; [auto|]. destruct ts; [reflexivity|discriminate].
    - destruct ts as [|t ts]; [discriminate|]. cbn [fmap list_fmap fst] in Hnd. apply NoDup_cons in Hnd as [Hk Hnd].
      destruct (IH ts Hnd ltac:(simpl in Hlen; lia) ltac:(intros; apply HP; right; auto)) as (T & HT & E).
      exists (fun k' => if decide (k' = k) then t else T k'). split.
      { intros k'. destruct (decide _); [apply HP; left|apply HT]. }
      change (f (k, p) * t + lsum (fun x => f x.1 * x.2) (zip l ts) =
              f (k, p) * (if decide (k = k) then t else T k) + lsum (fun kp => f kp * (if decide (kp.1 = k) then t else T kp.1)) l).
      rewrite decide_True by done. f_equal. rewrite E. apply lsum_ext. intros [k' p'] Hin. cbn [fst].
      rewrite decide_False; [reflexivity|]. intros ->. apply Hk. apply elem_of_list_fmap. exists (k, p'). auto.
  Qed.
  Lemma lsum_snoc {A} (f : A -> Qc) l a : lsum f (l ++ [a]) = lsum f l + f a.
  Proof. rewrite lsum_app. cbn [lsum foldr]. change (@sadd Qc Qc_ops) with Qcplus. change (@s0 Qc Qc_ops) with (0:Qc). ring. Qed.
  (** the product of the factors, each term of each sum having a factor of its own *)
  Lemma lu_entry_w (n : nat) (A : nat -> nat -> Qc) (T : nat -> Qc) i c : (i < n)%nat -> (c < n)%nat ->
    bsum n (fun t => unitlower A i t * upper A t c * T t) =
    bsum n (fun t => if decide (t < i /\ t < c)%nat then A i t * A t c * T t else 0) +
    (if (c <? i)%nat then A i c * A c c else A i c) * T (Nat.min i c).
  Proof.
    intros Hi Hc.
    rewrite <- (bsum_delta n (Nat.min i c) (fun t => (if (c <? i)%nat then A i c * A c c else A i c) * T (Nat.min i c))) by lia.
    change Qcplus with (@sadd Qc Qc_ops). rewrite <- bsum_add. apply bsum_ext. intros t Ht. unfold unitlower, upper.
    change (@sadd Qc Qc_ops) with Qcplus. change (@s0 Qc Qc_ops) with (0:Qc). change (@s1 Qc Qc_ops) with (1:Qc).
    destruct (Nat.ltb_spec c i).
    - rewrite (Nat.min_r i c) by lia.
      repeat match goal with |- context[decide ?P] => destruct (decide P); try lia end; subst; first [ring|replace t with c by lia; ring].
    - rewrite (Nat.min_l i c) by lia.
      repeat match goal with |- context[decide ?P] => destruct (decide P); try lia end; subst; first [ring|replace t with i by lia; ring].
  Qed.
End Lists.

Section Entry.
  Context (u : Qc) (Of : machine) (H : rounds u Of).
  Let Hu0 : 0 <= u := rd_nonneg u Of H.
  Let Hu1 : u < 1 := rd_lt u Of H.
  Notation close := (close u).
  Variable (M : srmat Qc).
  Hypothesis (Hw : wf_pat M) (Hd : wf_diag M) (Hs : wf_sorted M).
  Notation n := (nbrows M).
  Notation N := (nnz M).
  Notation pl := (positions M).
  Variables (scale : option (list Qc)) (ilu : list Qc).
  Hypothesis (Hv : length (vals M) = N) (Hsc : scale_ok scale n) (Hl : length ilu = N).
  Notation A := (scaled_mat scale (dense M)).
  Notation B := (entry M ilu).
  Notation sr := (2 * scale_roundings scale)%nat.

  Lemma vat_of l k : @vat Qc Of l k = vat l k.
  Proof. unfold vat. rewrite (rd_zero u Of H). reflexivity. Qed.
  Lemma scaled_entry_fl j : (j < N)%nat -> exists t, close sr t /\
    @scaled_entry Qc Of M scale (rowof M j) j = Ok (A (rowof M j) (col M j) * t).
  Proof.
    intros Hj. unfold scaled_entry, scaled_mat. pose proof (inrow_rowof M j Hw Hj) as [Hr _].
    rewrite (dense_pos M _ _ j (pos_self M Hw Hs j Hj)).
    rewrite vat_get by lia. cbn [bind]. destruct scale as [s|]; [|exists 1; split; [apply close_one; auto|f_equal; ring]]. simpl in Hsc.
    rewrite vat_get by lia. cbn [bind].
    rewrite (proj2 (get_Some _ _ _) (wf_bcolind M j Hw Hj)). cbn [bind].
    pose proof (wf_col M Hw j Hj). rewrite vat_get by lia. cbn [bind].
    destruct (fl_mul u Of H (vat (vals M) j) (vat s (rowof M j))) as (t1 & Ht1 & E1). rewrite E1.
    match goal with |- context [@smul _ _ ?a ?b] => destruct (fl_mul u Of H a b) as (t2 & Ht2 & E2) end. rewrite E2.
    exists (t1 * t2). split; [apply (close_mul u Hu1 1 1); auto|]. f_equal. change (@smul Qc Qc_ops) with Qcmult. ring.
  Qed.
  Lemma tms_short j : (j < N)%nat -> (length (tms M j) + 1 <= rowlen M (rowof M j))%nat.
  Proof.
    intros Hj. pose proof (inrow_rowof M j Hw Hj) as [_ Hin]. unfold tms, terms, rowlen.
    rewrite <- (range_length (rp M (rowof M j)) (rp M (rowof M j + 1))).
    enough (length (omap (term M (Nat.min (rowof M j) (col M j)) (col M j)) (range (rp M (rowof M j)) (rp M (rowof M j + 1))))
      < length (range (rp M (rowof M j)) (rp M (rowof M j + 1))))%nat by lia.
    apply (omap_length_lt _ _ j); [apply elem_of_range; exact Hin|]. apply term_none. lia.
  Qed.
  Lemma entry_sum_fl j : (j < N)%nat -> exists s tc T,
    exec ilu (@entry_sum Qc Of M pl scale (rowof M j) j) = Ok (s, ilu) /\
    close (length (tms M j) + sr) tc /\ (forall t, close (length (tms M j) + sr) (T t)) /\
    A (rowof M j) (col M j) = s * tc +
      bsum n (fun t => if decide (t < rowof M j /\ t < col M j)%nat then B (rowof M j) t * B t (col M j) * T t else 0).
  Proof.
    intros Hj. set (i := rowof M j). set (c := col M j).
    set (f := fun kp : nat * nat => vat ilu (fst kp) * vat ilu (snd kp)).
    set (Q := fun (m : nat) (s : Qc) => exists tc ts, length ts = m /\ close (m + sr) tc /\ (forall t, t ∈ ts -> close (m + sr) t) /\
       A i c = s * tc + lsum (fun x => f x.1 * x.2) (zip (take m (tms M j)) ts)).
    destruct (exec_wp ilu (@entry_sum Qc Of M pl scale i j) (fun s => Q (length (tms M j)) s)) as (s & He & Hq).
    - unfold entry_sum. apply wp_bind, wp_plift. destruct (scaled_entry_fl j Hj) as (t0 & Ht0 & E0). fold i c in E0. rewrite E0. cbn [ok].
      apply wp_bind, wp_plift, ok_pl; [lia|].
      apply wp_bind, wp_plift, ok_pl; [lia|].
      set (base := length (allterms M j)).
      apply (wp_pfor_post _ _ _ _ _ _ (fun k s => Q (k - base)%nat s)).
      + rewrite (allterms_next M j). lia.
      + rewrite Nat.sub_diag. exists (/ t0), []. split; [reflexivity|]. split; [apply close_inv; auto|].
        split; [intros t Hin; inversion Hin|]. change (A i c = A i c * t0 * / t0 + 0).
        pose proof (close_neq u Hu1 _ _ Ht0). field. auto.
      + intros k s' Hk (tc & ts & Hts & Hc1 & Hc2 & E). destruct (pl_loop M j k Hj Hk) as (a & b & Ha & Hb & Hab). fold base in Hab.
        destruct (tms_before M Hw Hs j a b Hj ltac:(eapply elem_of_list_lookup_2; eauto)) as [H1 H2].
        apply wp_bind, wp_plift. eapply ok_get; [exact Ha|].
        apply wp_bind, wp_plift. eapply ok_get; [exact Hb|].
        apply wp_bind, wp_pread; [eexists; apply vat_Some; lia|]. intros x Hx.
        apply wp_bind, wp_pread; [eexists; apply vat_Some; lia|]. intros y Hy.
        apply (vat_eq (O := Qc_ops)) in Hx, Hy. subst x y. simpl. replace (k + 1 - base)%nat with (S (k - base)) by (fold base in Hk; lia).
        destruct (fl_mul u Of H (vat ilu a) (vat ilu b)) as (t1 & Ht1 & ->).
        destruct (fl_sub u Of H s' (vat ilu a * vat ilu b * t1)) as (t2 & Ht2 & ->).
        pose proof (close_neq u Hu1 _ _ Ht2) as Hn2.
        exists (tc * / t2), (ts ++ [t1 * tc]). split; [rewrite app_length; simpl; lia|].
        split; [replace (S (k - base) + sr)%nat with (k - base + sr + 1)%nat by lia; apply close_mul; auto; apply close_inv; auto|].
        split.
        { intros t Hin. apply elem_of_app in Hin as [Hin|Hin].
          - eapply (close_mono u Hu0 Hu1 (k - base + sr)); [lia|auto].
          - apply elem_of_list_singleton in Hin as ->.
            replace (S (k - base) + sr)%nat with (1 + (k - base + sr))%nat by lia. apply close_mul; auto. }
        rewrite (take_S_r _ _ (a, b)) by exact Hab. rewrite zip_with_app by (rewrite take_length_le; [lia|]; apply Nat.lt_le_incl, lookup_lt_Some with (a, b); exact Hab).
        cbn [zip_with]. rewrite lsum_snoc. rewrite E. cbn [fst snd]. change (f (a, b)) with (vat ilu a * vat ilu b).
        match goal with |- context [lsum ?g ?l] => set (S0 := lsum g l) end. clearbody S0. field. exact Hn2.
      + intros s' Hq. replace (length (tms M j)) with (length (allterms M (j + 1)) - base)%nat; [exact Hq|].
        rewrite (allterms_next M j). fold base. lia.
    - destruct Hq as (tc & ts & Hts & Hc1 & Hc2 & E). rewrite firstn_all in E.
      destruct (zip_factors f (close (length (tms M j) + sr)) (tms M j) ts) as (T & HT & ET); auto.
      { apply close_one; auto. }
      { unfold tms, terms. apply term_nodup, NoDup_range. }
      exists s, tc, (fun t => match pos M i t with Some k => T k | None => 1 end). split; [exact He|]. split; [exact Hc1|]. split.
      { intros t. destruct (pos M i t); [apply HT|apply close_one; auto]. }
      rewrite E, ET. f_equal. unfold tms. rewrite terms_sum; auto; [|apply (inrow_rowof M j Hw Hj)]. fold i c.
      apply bsum_ext. intros t Ht. destruct (decide _); [|reflexivity].
      unfold entry. destruct (pos M i t), (pos M t c); unfold f; cbn [fst snd]; change (@s0 Qc Qc_ops) with (0:Qc); ring.
  Qed.
  (** [es] computes the sum up to [k] roundings, and one entry after the division has at
      most [K i] of them *)
  Definition sum_fl (es : srmat Qc -> ilupos -> option (list Qc) -> nat -> nat -> @P Qc Qc) (K : nat -> nat) : Prop :=
    forall j, (j < N)%nat -> exists s tc T k,
    exec ilu (es M pl scale (rowof M j) j) = Ok (s, ilu) /\ (k + 1 <= K (rowof M j))%nat /\
    close k tc /\ (forall t, close (K (rowof M j)) (T t)) /\
    A (rowof M j) (col M j) = s * tc +
      bsum n (fun t => if decide (t < rowof M j /\ t < col M j)%nat then B (rowof M j) t * B t (col M j) * T t else 0).
  (** a consistent array (one that the sweeps reproduce) holds factors of nearby products *)
  Lemma consistent_with_fl es K : sum_fl es K -> consistent 1 M (@factor_with Qc Of es M pl scale) ilu -> (forall i, (i < n)%nat -> B i i <> 0) ->
    forall i c, (i < n)%nat -> (c < n)%nat -> pos M i c <> None ->
    exists T, (forall t, close (K i) (T t)) /\ A i c = bsum n (fun t => unitlower B i t * upper B t c * T t).
  Proof.
    intros Hes [_ Hf] Hp i c Hi Hc Hpos. destruct (pos M i c) as [j|] eqn:Ej; [clear Hpos|congruence].
    pose proof Ej as Ej'. apply pos_Some in Ej' as [Hin Ecol]; [|done]. pose proof (inrow_lt M i j Hw Hin) as Hj.
    pose proof (rowof_inrow M i j Hw Hin) as Erow. specialize (Hf j Hj).
    destruct (Hes j Hj) as (s & tc & T & k & He & Hlen & Hc1 & Hc2 & E).
    rewrite Erow, Ecol in *.
    assert (exists t, close 1 t /\ vat ilu j = (if (c <? i)%nat then s / B c c else s) * t) as (t & Ht & Ev).
    { destruct (Nat.ltb_spec c i) as [Hlt|Hge].
      - destruct (fl_div u Of H s (B c c) (Hp c Hc)) as (t & Ht & Et). exists t. split; [exact Ht|]. rewrite <- Et.
        apply (fix_at_1 (O := Qc_ops) (entC M (@factor_with Qc Of es M pl scale)) ilu j); [|lia|exact Hf].
        unfold entC, factor_with. rewrite Erow, exec_bind, He. cbn [bind].
        rewrite (proj2 (get_Some _ _ _) (wf_bcolind M j Hw Hj)). cbn [plift pbind]. rewrite Ecol.
        rewrite (proj2 (Nat.ltb_lt c i) Hlt).
        rewrite (proj2 (get_Some _ _ _) (wf_diagind M _ Hd Hc)). cbn [plift pbind].
        unfold pread. cbn [pbind exec]. rewrite (vat_get ilu) by (pose proof (dg_N M Hw Hd _ Hc); lia). cbn [bind exec].
        rewrite (entry_diag M ilu Hd Hs) by done. reflexivity.
      - exists 1. split; [apply close_one; auto|]. rewrite Qcmult_1_r.
        apply (fix_at_1 (O := Qc_ops) (entC M (@factor_with Qc Of es M pl scale)) ilu j); [|lia|exact Hf].
        unfold entC, factor_with. rewrite Erow, exec_bind, He. cbn [bind].
        rewrite (proj2 (get_Some _ _ _) (wf_bcolind M j Hw Hj)). cbn [plift pbind]. rewrite Ecol.
        rewrite (proj2 (Nat.ltb_ge c i) Hge). reflexivity. }
    pose proof (close_neq u Hu1 _ _ Ht) as Hnt.
    exists (fun t' => if decide (t' = Nat.min i c) then tc * / t else T t'). split.
    - intros t'. destruct (decide _).
      + eapply (close_mono u Hu0 Hu1 (k + 1)); [lia|]. apply close_mul; auto. apply close_inv; auto.
      + apply Hc2.
    - rewrite lu_entry_w by done. rewrite decide_True by done. rewrite E, Qcplus_comm. f_equal.
      + apply bsum_ext. intros t' Ht'. destruct (decide _) as [Hd'|]; [|reflexivity]. rewrite decide_False by lia. reflexivity.
      + rewrite (entry_pos M ilu i c j Ej), Ev. destruct (c <? i)%nat.
        * specialize (Hp c Hc). field. auto.
        * field. auto.
  Qed.
  Lemma entry_sum_sum_fl : sum_fl (@entry_sum Qc Of) (fun i => rowlen M i + sr)%nat.
  Proof.
    intros j Hj. destruct (entry_sum_fl j Hj) as (s & tc & T & He & Hc1 & Hc2 & E). pose proof (tms_short j Hj) as Hlen.
    exists s, tc, T, (length (tms M j) + sr)%nat. split; [exact He|]. split; [lia|]. split; [exact Hc1|]. split; [|exact E].
    intros t. eapply (close_mono u Hu0 Hu1); [|apply Hc2]. lia.
  Qed.
  Lemma consistent_fl : consistent 1 M (@factor_entry Qc Of M pl scale) ilu -> (forall i, (i < n)%nat -> B i i <> 0) ->
    forall i c, (i < n)%nat -> (c < n)%nat -> pos M i c <> None ->
    exists T, (forall t, close (rowlen M i + sr) (T t)) /\ A i c = bsum n (fun t => unitlower B i t * upper B t c * T t).
  Proof. exact (consistent_with_fl _ _ entry_sum_sum_fl). Qed.
End Entry.
