(** * PropSaiResidual: C64 *)
From Coq Require Import ZArith Sorting.Sorted.
From Verif Require Import Base Alg SRMatrix KernelFacts TriFacts Nd PropTriView BlockMat Sai SaiSpec SaiFacts PropSai PropSaiValues.
Local Open Scope nat_scope.

(** ** Specification *)
Section Spec.
  Context {F : Type} {O : SOps F}.
  Definition sq (x : F) : F := (x * x)%s.
  (** sum of the squares of the entries of L X - R *)
  Definition misfit (L X R : lmat F) : F :=
    bsum (lcols R) (fun a => bsum (lrows L) (fun r => sq (bsum (lcols L) (fun t => (lent L r t * lent X t a)%s) - lent R r a)%s)).
  (** sum of the squares of the entries of (block) row [i] of M A - I *)
  Definition row_error (so : storage) (bs : nat) (M V : srmat F) (i : nat) : F :=
    bsum bs (fun a => bsum (nbrows V * bs) (fun J => sq (prod so bs (nbrows V * bs) M V (i * bs + a) J - delta (i * bs + a) J)%s)).
  (** [X] solves L X = R *)
  Definition solves (L X R : lmat F) : Prop :=
    forall r a, r < lrows L -> a < lcols R -> bsum (lcols L) (fun t => (lent L r t * lent X t a)%s) = lent R r a.
End Spec.

Section Residual.
  Context {F : Type} {O : SOps F} {Rg : CRing F}.
  Add Ring Fr : cring.
  Lemma lsum_seq n (f : nat -> F) : lsum f (seq 0 n) = bsum n f.
  Proof.
    induction n as [|n IH]; [reflexivity|]. rewrite seq_S, Nat.add_0_l, lsum_app, IH. cbn [lsum foldr bsum]. ring.
  Qed.
  Lemma sq_diff (x : F) : sq (x - x)%s = s0.
  Proof. unfold sq. ring. Qed.
  (** a sum over the members of a list without repetitions *)
  Lemma bsum_list n (l : list nat) (g : nat -> F) : NoDup l -> (forall x, x ∈ l -> x < n) -> (forall x, x < n -> x ∉ l -> g x = s0) ->
    bsum n g = bsum (length l) (fun q => g (l !!! q)).
  Proof.
    intros Hd Hlt Hz. assert ((fun q => l !!! q) <$> seq 0 (length l) = l) as El.
    { apply list_eq_lt; [rewrite fmap_length, seq_length; reflexivity|]. intros q Hq. rewrite fmap_length, seq_length in Hq. rewrite list_lookup_fmap, lookup_seq_lt by exact Hq. cbn. symmetry. apply list_lookup_lookup_total_lt, Hq. }
    symmetry. rewrite <- (lsum_seq (length l)). apply (lsum_bsum n (fun q => l !!! q)).
    - rewrite El. exact Hd.
    - intros q Hq. apply elem_of_seq in Hq. apply Hlt. eapply elem_of_list_lookup_2, list_lookup_lookup_total_lt. lia.
    - reflexivity.
    - intros x Hx Hn. apply Hz; [exact Hx|]. rewrite El in Hn. exact Hn.
  Qed.

  Context (so : storage) (bs : nat) (V sai : srmat F) (E : nat -> list nat).
  Notation n := (nbrows V).
  Hypothesis Hw : wf_view V.
  Hypothesis Hnd : nodup_rows V.
  Hypothesis Hf : fits bs V sai.
  Hypothesis Hpat : forall i, i < n -> unknowns sai i = unknowns V i.

  Lemma unknown_lt i u : i < n -> u ∈ unknowns V i -> u < n.
  Proof. intros Hi Hu. unfold unknowns in Hu. apply elem_of_list_fmap in Hu as (j & -> & Hj). destruct Hw as (_ & _ & _ & H). eapply H; eassumption. Qed.
  Lemma sai_entry i q u X vs a d : i < n -> is_row so bs sai i X vs -> unknowns V i !! q = Some u -> a < bs -> d < bs ->
    vdense so bs (with_vals sai vs) (i * bs + a) (u * bs + d) = lent X (q * bs + d) a.
  Proof.
    intros Hi HX Hq Ha Hd. rewrite <- Hpat in Hq by exact Hi. unfold unknowns in Hq. rewrite list_lookup_fmap in Hq. destruct (vrange sai i !! q) as [j|] eqn:Ej; [|discriminate]. cbn in Hq. injection Hq as Hc.
    rewrite vdense_at by assumption. replace (vpos (with_vals sai vs) i u) with (Some j).
    - unfold bent. cbn [with_vals vals]. rewrite (HX q j a d Ej Ha Hd). reflexivity.
    - symmetry. apply (vpos_Some (with_vals sai vs) i u j).
      + change (unknowns (with_vals sai vs) i) with (unknowns sai i). rewrite Hpat by exact Hi. apply Hnd, Hi.
      + split; [eapply elem_of_list_lookup_2, Ej|exact Hc].
  Qed.
  Lemma sai_no_entry i k vs a d : i < n -> k ∉ unknowns V i -> a < bs -> d < bs -> vdense so bs (with_vals sai vs) (i * bs + a) (k * bs + d) = s0.
  Proof.
    intros Hi Hk Ha Hd. rewrite vdense_at by assumption. replace (vpos (with_vals sai vs) i k) with (@None nat); [reflexivity|]. symmetry. apply vpos_None.
    change (unknowns (with_vals sai vs) i) with (unknowns sai i). rewrite Hpat by exact Hi. exact Hk.
  Qed.

  (** In the columns that are equations, row i of M A - I is the misfit of the small system, whatever the values. *)
  Theorem C64_residual i L R X vs z e a b : i < n -> is_lhs so bs V (E i) i L -> is_rhs bs (E i) i R -> is_row so bs sai i X vs ->
    E i !! z = Some e -> a < bs -> b < bs ->
    (prod so bs (n * bs) (with_vals sai vs) V (i * bs + a) (e * bs + b) - delta (i * bs + a) (e * bs + b) =
     bsum (lcols L) (fun t => lent L (z * bs + b) t * lent X t a) - lent R (z * bs + b) a)%s.
  Proof.
    intros Hi [HL HLe] [HR HRe] HX Hz Ha Hb. rewrite (HRe z e a b Hz Ha Hb). f_equal.
    - unfold prod. rewrite bsum_flat. destruct HL as (_ & -> & _). rewrite bsum_flat. rewrite (bsum_list n (unknowns V i)).
      + apply bsum_ext. intros q Hq. pose proof (list_lookup_lookup_total_lt _ _ Hq) as Hu. apply bsum_ext. intros d Hd. rewrite (sai_entry i q _ X) by assumption. rewrite (HLe q _ z e d b Hu Hz Hd Hb). ring.
      + apply Hnd, Hi.
      + intros x. apply unknown_lt, Hi.
      + intros k Hk Hn. apply bsum_zero. intros d Hd. rewrite sai_no_entry by assumption. ring.
    - unfold delta. destruct (decide _) as [D|D], (decide _) as [D'|D']; try reflexivity.
      + apply flat_eq in D as [-> ->]; [|assumption..]. destruct D'. auto.
      + destruct D' as [-> ->]. destruct D. reflexivity.
  Qed.
  (** In the other columns, row i of M A is zero if the equations are those of the full pattern. *)
  Theorem C64_other i vs c a b : i < n -> full_equations V i (E i) -> c ∉ E i -> a < bs -> b < bs ->
    prod so bs (n * bs) (with_vals sai vs) V (i * bs + a) (c * bs + b) = s0.
  Proof.
    intros Hi [_ HE] Hc Ha Hb. unfold prod. rewrite bsum_flat. apply bsum_zero. intros k Hk. apply bsum_zero. intros d Hd. destruct (decide (k ∈ unknowns V i)) as [Hin|Hn].
    - rewrite (vdense_at so bs V k c) by assumption. replace (vpos V k c) with (@None nat); [ring|]. symmetry. apply vpos_None. intros H. apply Hc, HE. eauto.
    - rewrite sai_no_entry by assumption. ring.
  Qed.
  Lemma full_diag i : i < n -> diag_present V -> full_equations V i (E i) -> i ∈ E i.
  Proof. intros Hi Hd [_ HE]. apply HE. exists i. split; apply Hd, Hi. Qed.
  Lemma full_lt i c : i < n -> full_equations V i (E i) -> c ∈ E i -> c < n.
  Proof. intros Hi [_ HE] Hc. apply HE in Hc as (u & Hu & Hc). eapply unknown_lt, Hc. eapply unknown_lt, Hu. exact Hi. Qed.

  (** The squared error of a row is the squared misfit of its small system. *)
  Theorem C64_error i L R X vs : i < n -> diag_present V -> full_equations V i (E i) -> is_lhs so bs V (E i) i L -> is_rhs bs (E i) i R -> is_row so bs sai i X vs ->
    row_error so bs (with_vals sai vs) V i = misfit L X R.
  Proof.
    intros Hi Hdg HE HL HR HX. unfold row_error, misfit. pose proof HL as [(HL1 & _ & _) _]. pose proof HR as [(_ & HR2 & _) _]. rewrite HR2. apply bsum_ext. intros a Ha.
    rewrite bsum_flat, HL1, bsum_flat. rewrite (bsum_list n (E i)).
    - apply bsum_ext. intros z Hz. apply bsum_ext. intros b Hb. f_equal. apply C64_residual; auto. apply list_lookup_lookup_total_lt, Hz.
    - apply sorted_NoDup, HE.
    - intros c Hc. eapply full_lt; eassumption.
    - intros c Hc Hn. apply bsum_zero. intros b Hb. rewrite C64_other by assumption. unfold delta. rewrite decide_False; [unfold sq; ring|]. intros e. apply flat_eq in e as [<- _]; [|assumption..].
      apply Hn, full_diag; assumption.
  Qed.
  (** An exact solution of the small system makes row i of M A agree with the identity in the columns that are equations... *)
  Theorem C64_exact i L R X vs e a b : i < n -> is_lhs so bs V (E i) i L -> is_rhs bs (E i) i R -> is_row so bs sai i X vs -> solves L X R ->
    e ∈ E i -> a < bs -> b < bs -> prod so bs (n * bs) (with_vals sai vs) V (i * bs + a) (e * bs + b) = delta (i * bs + a) (e * bs + b).
  Proof.
    intros Hi HL HR HX Hs He Ha Hb. apply elem_of_list_lookup in He as [z Hz]. pose proof (C64_residual i L R X vs z e a b Hi HL HR HX Hz Ha Hb) as H. rewrite Hs in H.
    - replace (prod so bs (n * bs) (with_vals sai vs) V (i * bs + a) (e * bs + b)) with ((prod so bs (n * bs) (with_vals sai vs) V (i * bs + a) (e * bs + b) - delta (i * bs + a) (e * bs + b)) + delta (i * bs + a) (e * bs + b))%s by ring. rewrite H. ring.
    - destruct HL as [(-> & _) _]. apply lookup_lt_Some in Hz. nia.
    - destruct HR as [(_ & -> & _) _]. exact Ha.
  Qed.

  (** the solution matrix that corresponds to given values *)
  Lemma row_matrix i vs : i < n -> length vs = length (vals sai) -> exists X, lwf X (length (unknowns V i) * bs) bs /\ is_row so bs sai i X vs.
  Proof.
    intros Hi Hl. set (nv := length (unknowns V i)). set (g := fun p => default s0 (vs !! (vrange sai i !!! ((p mod (nv * bs)) / bs) * (bs * bs) + lay so bs (p / (nv * bs)) ((p mod (nv * bs)) mod bs)))).
    exists (LMat (nv * bs) bs (g <$> seq 0 (nv * bs * bs))). split.
    - split; [reflexivity|]. split; [reflexivity|]. cbn. rewrite fmap_length, seq_length. reflexivity.
    - intros q j a b Hq Ha Hb. destruct Hf as (_ & _ & _ & Hlen & Hv). pose proof (lookup_lt_Some _ _ _ Hq) as Hql. rewrite Hlen in Hql by exact Hi.
      assert (q < nv) as Hqn by (unfold nv, unknowns; rewrite fmap_length; exact Hql).
      unfold lent. cbn [ldata lrows]. rewrite list_lookup_fmap, lookup_seq_lt by nia. cbn [fmap option_fmap option_map default]. unfold g. rewrite Nat.add_0_l.
      replace (q * bs + b + a * (nv * bs)) with (a * (nv * bs) + (q * bs + b)) by lia. rewrite !(flat_mod (nv * bs)), !(flat_div (nv * bs)) by nia. rewrite (flat_div bs), (flat_mod bs) by exact Hb. rewrite (list_lookup_total_correct _ _ _ Hq).
      pose proof (Hv i j Hi ltac:(eapply elem_of_list_lookup_2, Hq)). pose proof (lay_lt so bs a b Ha Hb).
      destruct (lookup_lt_is_Some_2 vs (j * (bs * bs) + lay so bs a b)) as [x Hx]; [lia|]. rewrite Hx. reflexivity.
  Qed.
End Residual.

Section EndToEnd.
  Context {F : Type} {O : SOps F} {Rg : CRing F}.
  Context (so : storage) (bs : nat) (V sai : srmat F).
  Notation n := (nbrows V).
  Hypothesis Hw : wf_view V.
  Hypothesis Hnd : nodup_rows V.
  Hypothesis Hdg : diag_present V.
  Hypothesis Hvals : forall i j, i < n -> j ∈ vrange V i -> j * (bs * bs) + bs * bs <= length (vals V).
  Hypothesis Hf : fits bs V sai.
  Hypothesis Hpat : forall i, i < n -> unknowns sai i = unknowns V i.
  Variable solve : bool -> lmat F -> lmat F -> lmat F.

  (** Full: if the solver minimises the misfit of the small systems, then each row of M A - I is as small as the pattern allows. *)
  Theorem C64_optimal (le : F -> F -> Prop) : right_size (solve true) ->
    (forall i E L R X, i < n -> full_equations V i E -> is_lhs so bs V E i L -> is_rhs bs E i R -> lwf X (lcols L) bs -> le (misfit L (solve true L R) R) (misfit L X R)) ->
    exists sp, left_SAI_pattern V = Ok sp /\
      nok (compute_SAI solve false so bs V sp true sai) (fun vs => length vs = length (vals sai) /\
        forall i vs', i < n -> length vs' = length (vals sai) -> le (row_error so bs (with_vals sai vs) V i) (row_error so bs (with_vals sai vs') V i)).
  Proof.
    intros Hsize Hopt. destruct (proj1 (ok_inv _ _) (C51_full V Hw)) as (sp & Esp & E & HE & Hsp). exists sp. split; [exact Esp|].
    eapply nok_mono; [apply (C51_compute so bs V E sp Hw Hnd Hvals Hsp solve true sai Hsize Hf)|].
    - intros i Hi. split; [eapply full_diag; eauto|apply sorted_NoDup, HE, Hi].
    - intros vs (Hl & Hr & _). split; [exact Hl|]. intros i vs' Hi Hl'. destruct (Hr i Hi) as (L & R & HL & HR & HX).
      destruct (row_matrix so bs V sai Hf i vs' Hi Hl') as (X' & HX'w & HX').
      rewrite (C64_error so bs V sai E Hw Hnd Hpat i L R _ vs Hi Hdg (HE i Hi) HL HR HX). rewrite (C64_error so bs V sai E Hw Hnd Hpat i L R _ vs' Hi Hdg (HE i Hi) HL HR HX').
      apply (Hopt i (E i) L R X' Hi (HE i Hi) HL HR). destruct HL as [(_ & -> & _) _]. exact HX'w.
  Qed.
  (** Full: if the small systems are solved exactly, then M A = I. *)
  Theorem C64_full_exact : right_size (solve true) ->
    (forall i E L R, i < n -> full_equations V i E -> is_lhs so bs V E i L -> is_rhs bs E i R -> solves L (solve true L R) R) ->
    exists sp, left_SAI_pattern V = Ok sp /\
      nok (compute_SAI solve false so bs V sp true sai) (fun vs => length vs = length (vals sai) /\
        forall I J, I < n * bs -> J < n * bs -> prod so bs (n * bs) (with_vals sai vs) V I J = delta I J).
  Proof.
    intros Hsize Hex. destruct (proj1 (ok_inv _ _) (C51_full V Hw)) as (sp & Esp & E & HE & Hsp). exists sp. split; [exact Esp|].
    eapply nok_mono; [apply (C51_compute so bs V E sp Hw Hnd Hvals Hsp solve true sai Hsize Hf)|].
    - intros i Hi. split; [eapply full_diag; eauto|apply sorted_NoDup, HE, Hi].
    - intros vs (Hl & Hr & _). split; [exact Hl|]. intros I J HI HJ. assert (0 < bs) as Hbs by (destruct bs; lia).
      rewrite (Nat.div_mod I bs), (Nat.div_mod J bs), (Nat.mul_comm bs (I / bs)), (Nat.mul_comm bs (J / bs)) by lia.
      assert (I / bs < n) as Hi by (apply Nat.div_lt_upper_bound; lia). pose proof (Nat.mod_upper_bound I bs ltac:(lia)) as Ha. pose proof (Nat.mod_upper_bound J bs ltac:(lia)) as Hb.
      destruct (Hr _ Hi) as (L & R & HL & HR & HX). destruct (decide (J / bs ∈ E (I / bs))) as [Hin|Hn].
      + eapply (C64_exact so bs V sai E); eauto.
      + rewrite (C64_other so bs V sai E) by auto. unfold delta. rewrite decide_False; [reflexivity|]. intros e. apply flat_eq in e as [e _]; [|assumption..]. rewrite <- e in Hn. apply Hn.
        eapply full_diag; eauto.
  Qed.
  (** Incomplete: if the small systems are solved exactly, then M A agrees with I on the pattern of A. *)
  Theorem C64_incomplete : right_size (solve false) ->
    (forall i L R, i < n -> is_lhs so bs V (unknowns V i) i L -> is_rhs bs (unknowns V i) i R -> solves L (solve false L R) R) ->
    exists sp, left_incomplete_SAI_pattern V = Ok sp /\
      nok (compute_SAI solve false so bs V sp false sai) (fun vs => length vs = length (vals sai) /\
        forall i c a b, i < n -> c ∈ unknowns V i -> a < bs -> b < bs -> prod so bs (n * bs) (with_vals sai vs) V (i * bs + a) (c * bs + b) = delta (i * bs + a) (c * bs + b)).
  Proof.
    intros Hsize Hex. destruct (proj1 (ok_inv _ _) (C51_incomplete V Hw Hnd)) as (sp & Esp & Hsp). exists sp. split; [exact Esp|].
    eapply nok_mono; [apply (C51_compute so bs V _ sp Hw Hnd Hvals Hsp solve false sai Hsize Hf)|].
    - intros i Hi. split; [apply Hdg, Hi|apply Hnd, Hi].
    - intros vs (Hl & Hr & _). split; [exact Hl|]. intros i c a b Hi Hc Ha Hb. destruct (Hr i Hi) as (L & R & HL & HR & HX). eapply (C64_exact so bs V sai (unknowns V)); eauto.
  Qed.
End EndToEnd.
