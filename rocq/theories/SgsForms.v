(** * SgsForms: the Gauss-Seidel and relaxation kernels in value form, and the inverted diagonal *)
From Verif Require Import Base Alg SRMatrix Async AsyncTheory AsyncSystem AsyncSweeps Nd Kernels KernelFacts
  IluApply IluApplyFacts TriSpec TriFacts IluApplyProofs IluApplyMain Sgs SgsFacts SgsProofs.

(** what is assumed of Eigen's inverse of a [bs] by [bs] block: it inverts every
    invertible block *)
Definition inverse_oracle {F} {O : SOps F} (so : storage) (bs : nat) (inv : list F -> list F) : Prop :=
  forall blk, length blk = bs * bs -> length (inv blk) = bs * bs /\
    forall Y, is_inverse bs (bent so bs blk 0) Y -> is_inverse bs (bent so bs blk 0) (bent so bs (inv blk) 0).

Section Forms.
  Context {F : Type} {O : SOps F} {R : CRing F}.
  Add Ring Fr : cring.
  Open Scope s_scope.
  Variables (so : storage) (bs : nat) (M : srmat F) (d : list F).
  Hypothesis (Hw : wf_pat M) (Hd : wf_diag M) (Hs : wf_sorted M).
  Notation n := (nbrows M).

  Lemma exec_low_sdot y i : length (vals M) = nnz M -> length y = n -> (i < n)%nat -> forall a,
    exec y (sdot (vals M) (bcolind M) (rp M i) (dg M i) a) = Ok (a + offl 1 n (dense M) y i 0, y).
  Proof.
    intros Hl Hy Hi a. pose proof (row_bounds M Hw Hd i Hi) as Hb. rewrite exec_sdot.
    - f_equal. f_equal. f_equal. rewrite low_row_sum by done. unfold offl. apply bsum_ext. intros c Hc.
      destruct (decide (c < i)%nat); [|reflexivity]. simpl. rewrite !Nat.mul_1_r, !Nat.add_0_r. unfold dense.
      destruct (pos M i c) as [j|] eqn:E; [|ring].
      apply pos_Some in E as [_ E]; [|done]. unfold col in E. rewrite E. unfold vat at 1. ring.
    - lia.
    - lia.
    - rewrite (wf_clen M Hw). lia.
    - intros j Hj. rewrite Hy. apply (wf_col M Hw). lia.
  Qed.
  Lemma exec_up_sdot y i : length (vals M) = nnz M -> length y = n -> (i < n)%nat -> forall a,
    exec y (sdot (vals M) (bcolind M) (dg M i + 1) (rp M (i + 1)) a) = Ok (a + offu 1 n (dense M) y i 0, y).
  Proof.
    intros Hl Hy Hi a. pose proof (row_bounds M Hw Hd i Hi) as Hb. rewrite exec_sdot.
    - f_equal. f_equal. f_equal. rewrite up_row_sum by done. unfold offu. apply bsum_ext. intros c Hc.
      destruct (decide (i < c)%nat); [|reflexivity]. simpl. rewrite !Nat.mul_1_r, !Nat.add_0_r. unfold dense.
      destruct (pos M i c) as [j|] eqn:E; [|ring].
      apply pos_Some in E as [_ E]; [|done]. unfold col in E. rewrite E. unfold vat at 1. ring.
    - lia.
    - lia.
    - rewrite (wf_clen M Hw). lia.
    - intros j Hj. rewrite Hy. apply (wf_col M Hw). lia.
  Qed.
  Definition sdinv (i p k : nat) : F := vat d i.
  Lemma scalar_fgs_form : length (vals M) = nnz M -> length d = n ->
    fgs_form 1 n (dense M) sdinv (scalar_fgsC M d).
  Proof.
    intros Hl Hdl r y i Hr Hy Hi. rewrite Nat.mul_1_r in *. unfold scalar_fgsC.
    rewrite (proj2 (get_Some _ _ _) (wf_browptr M i Hw ltac:(lia))).
    rewrite (proj2 (get_Some _ _ _) (wf_diagind M i Hd Hi)).
    rewrite (vat_get d), (vat_get r) by lia. cbn [plift pbind]. unfold scalar_fgs.
    rewrite exec_bind, exec_bind, exec_low_sdot by done. simpl. eexists. split; [reflexivity|]. split; [reflexivity|].
    intros p Hp. replace p with 0%nat by lia. simpl. unfold vat at 1. simpl. unfold sdinv.
    rewrite ?Nat.mul_1_r, ?Nat.add_0_r. ring.
  Qed.
  Lemma scalar_bgs_form : length (vals M) = nnz M -> length d = n ->
    bgs_form 1 n (dense M) sdinv (scalar_bgsC M d).
  Proof.
    intros Hl Hdl y z i Hy Hz Hi. rewrite Nat.mul_1_r in *. unfold scalar_bgsC.
    pose proof (row_bounds M Hw Hd i Hi) as Hb.
    rewrite (proj2 (get_Some _ _ _) (wf_diagind M i Hd Hi)).
    rewrite (proj2 (get_Some _ _ _) (wf_browptr M (i + 1) Hw ltac:(lia))).
    cbn [plift pbind]. rewrite (vat_get (vals M)), (vat_get d), (vat_get y) by lia. cbn [plift pbind]. unfold scalar_bgs.
    rewrite exec_bind, exec_bind, exec_up_sdot by done. simpl. eexists. split; [reflexivity|]. split; [reflexivity|].
    intros p Hp. replace p with 0%nat by lia. simpl. unfold vat at 1. simpl. unfold sdinv.
    rewrite ?Nat.mul_1_r, ?Nat.add_0_r. ring.
  Qed.
  Lemma scalar_relax_form : length (vals M) = nnz M -> length d = n ->
    relax_form 1 n (dense M) sdinv (scalar_relaxC M d).
  Proof.
    intros Hl Hdl b x i Hb Hx Hi. rewrite Nat.mul_1_r in *. unfold scalar_relaxC.
    rewrite (proj2 (get_Some _ _ _) (wf_browptr M i Hw ltac:(lia))).
    rewrite (proj2 (get_Some _ _ _) (wf_diagind M i Hd Hi)).
    rewrite (proj2 (get_Some _ _ _) (wf_browptr M (i + 1) Hw ltac:(lia))).
    rewrite (vat_get d), (vat_get b) by lia. cbn [plift pbind]. unfold scalar_relax.
    rewrite exec_bind, exec_bind, exec_low_sdot by done. simpl. rewrite exec_bind, exec_up_sdot by done. simpl.
    eexists. split; [reflexivity|]. split; [reflexivity|].
    intros p Hp. replace p with 0%nat by lia. simpl. unfold vat at 1. simpl. unfold sdinv.
    rewrite ?Nat.mul_1_r, ?Nat.add_0_r. ring.
  Qed.

  (** ** Block *)
  Lemma exec_low_bdot y i a : length (vals M) = (nnz M * (bs * bs))%nat -> length y = (n * bs)%nat -> (i < n)%nat ->
    length a = bs ->
    exists u, exec y (bdot so bs (vals M) (bcolind M) (rp M i) (dg M i) a) = Ok (u, y) /\ length u = bs /\
      forall p, (p < bs)%nat -> vat u p = vat a p + offl bs n (bdense so bs M) y i p.
  Proof.
    intros Hl Hy Hi Ha. pose proof (row_bounds M Hw Hd i Hi) as Hb.
    destruct (exec_bdot y so bs (vals M) (bcolind M) (rp M i) (dg M i) a) as (u & He & Hu & Hv).
    - lia.
    - nia.
    - rewrite (wf_clen M Hw). lia.
    - exact Ha.
    - intros j q Hj Hq. pose proof (wf_col M Hw j ltac:(lia)) as Hc. unfold col in Hc. nia.
    - exists u. split; [exact He|]. split; [exact Hu|]. intros p Hp. rewrite Hv by done. f_equal.
      rewrite low_row_sum by done. unfold offl.
      apply bsum_ext. intros c Hc. destruct (decide (c < i)%nat); [|reflexivity].
      destruct (pos M i c) as [j|] eqn:E.
      + assert (col M j = c) as Ec by (apply pos_Some in E as [_ E]; done). unfold col in Ec.
        apply bsum_ext. intros q Hq. change (bdense so bs M) with (bentry so bs M (vals M)).
        rewrite bentry_flat by done. rewrite E, Ec. reflexivity.
      + symmetry. apply bsum_zero. intros q Hq. change (bdense so bs M) with (bentry so bs M (vals M)).
        rewrite bentry_flat by done. rewrite E. ring.
  Qed.
  Lemma exec_up_bdot y i a : length (vals M) = (nnz M * (bs * bs))%nat -> length y = (n * bs)%nat -> (i < n)%nat ->
    length a = bs ->
    exists u, exec y (bdot so bs (vals M) (bcolind M) (dg M i + 1) (rp M (i + 1)) a) = Ok (u, y) /\ length u = bs /\
      forall p, (p < bs)%nat -> vat u p = vat a p + offu bs n (bdense so bs M) y i p.
  Proof.
    intros Hl Hy Hi Ha. pose proof (row_bounds M Hw Hd i Hi) as Hb.
    destruct (exec_bdot y so bs (vals M) (bcolind M) (dg M i + 1) (rp M (i + 1)) a) as (u & He & Hu & Hv).
    - lia.
    - nia.
    - rewrite (wf_clen M Hw). lia.
    - exact Ha.
    - intros j q Hj Hq. pose proof (wf_col M Hw j ltac:(lia)) as Hc. unfold col in Hc. nia.
    - exists u. split; [exact He|]. split; [exact Hu|]. intros p Hp. rewrite Hv by done. f_equal.
      rewrite up_row_sum by done. unfold offu.
      apply bsum_ext. intros c Hc. destruct (decide (i < c)%nat); [|reflexivity].
      destruct (pos M i c) as [j|] eqn:E.
      + assert (col M j = c) as Ec by (apply pos_Some in E as [_ E]; done). unfold col in Ec.
        apply bsum_ext. intros q Hq. change (bdense so bs M) with (bentry so bs M (vals M)).
        rewrite bentry_flat by done. rewrite E, Ec. reflexivity.
      + symmetry. apply bsum_zero. intros q Hq. change (bdense so bs M) with (bentry so bs M (vals M)).
        rewrite bentry_flat by done. rewrite E. ring.
  Qed.
  Definition bdinv (i p k : nat) : F := bent so bs d i p k.
  Lemma block_fgs_form : length (vals M) = (nnz M * (bs * bs))%nat -> length d = (n * (bs * bs))%nat ->
    fgs_form bs n (bdense so bs M) bdinv (block_fgsC so bs M d).
  Proof.
    intros Hl Hdl r y i Hr Hy Hi. unfold block_fgsC.
    rewrite (proj2 (get_Some _ _ _) (wf_browptr M i Hw ltac:(lia))).
    rewrite (proj2 (get_Some _ _ _) (wf_diagind M i Hd Hi)).
    destruct (getseg_val bs r i) as (rhs & -> & Hrl & Hrv); [nia|].
    destruct (exec_low_bdot y i (bzero bs) Hl Hy Hi (bzero_length bs)) as (t & He & Htl & Htv).
    cbn [plift pbind]. unfold block_fgs. rewrite exec_bind, He. simpl.
    destruct (ok_bmatvec_val so bs d (i * (bs * bs)) (vsub rhs t)) as (u & -> & Hul & Huv);
      [nia|apply vsub_length; auto|].
    exists u. split; [reflexivity|]. split; [exact Hul|].
    intros p Hp. rewrite Huv by done. apply bsum_ext. intros k Hk. unfold bdinv, bent, vat at 1. f_equal.
    rewrite vat_vsub by lia. rewrite Hrv, Htv, vat_bzero by done. ring.
  Qed.
  Lemma block_bgs_form : length (vals M) = (nnz M * (bs * bs))%nat -> length d = (n * (bs * bs))%nat ->
    bgs_form bs n (bdense so bs M) bdinv (block_bgsC so bs M d).
  Proof.
    intros Hl Hdl y z i Hy Hz Hi. unfold block_bgsC. pose proof (row_bounds M Hw Hd i Hi) as Hb.
    rewrite (proj2 (get_Some _ _ _) (wf_diagind M i Hd Hi)).
    rewrite (proj2 (get_Some _ _ _) (wf_browptr M (i + 1) Hw ltac:(lia))).
    destruct (getseg_val bs y i) as (rhs & -> & Hrl & Hrv); [nia|].
    destruct (exec_up_bdot z i (bzero bs) Hl Hz Hi (bzero_length bs)) as (t & He & Htl & Htv).
    cbn [plift pbind]. unfold block_bgs. rewrite exec_bind, He. simpl.
    destruct (ok_bmatvec_val so bs d (i * (bs * bs)) t) as (u & -> & Hul & Huv); [nia|auto|].
    simpl. exists (vsub rhs u). split; [reflexivity|]. split; [apply vsub_length; auto|].
    intros p Hp. rewrite vat_vsub by lia. rewrite Hrv, Huv by done. f_equal.
    apply bsum_ext. intros k Hk. unfold bdinv, bent, vat at 1. f_equal.
    rewrite Htv, vat_bzero by done. ring.
  Qed.
  Lemma block_relax_form : length (vals M) = (nnz M * (bs * bs))%nat -> length d = (n * (bs * bs))%nat ->
    relax_form bs n (bdense so bs M) bdinv (block_relaxC so bs M d).
  Proof.
    intros Hl Hdl b x i Hb Hx Hi. unfold block_relaxC.
    rewrite (proj2 (get_Some _ _ _) (wf_browptr M i Hw ltac:(lia))).
    rewrite (proj2 (get_Some _ _ _) (wf_diagind M i Hd Hi)).
    rewrite (proj2 (get_Some _ _ _) (wf_browptr M (i + 1) Hw ltac:(lia))).
    destruct (getseg_val bs b i) as (rhs & -> & Hrl & Hrv); [nia|].
    destruct (exec_low_bdot x i (bzero bs) Hl Hx Hi (bzero_length bs)) as (t & He & Htl & Htv).
    destruct (exec_up_bdot x i t Hl Hx Hi Htl) as (t' & He' & Htl' & Htv').
    cbn [plift pbind]. unfold block_relax_kernel. rewrite exec_bind, He. simpl. rewrite exec_bind, He'. simpl.
    destruct (ok_bmatvec_val so bs d (i * (bs * bs)) (vsub rhs t')) as (u & -> & Hul & Huv);
      [nia|apply vsub_length; auto|].
    exists u. split; [reflexivity|]. split; [exact Hul|].
    intros p Hp. rewrite Huv by done. apply bsum_ext. intros k Hk. unfold bdinv, bent, vat at 1. f_equal.
    rewrite vat_vsub by lia. rewrite Hrv, Htv', Htv, vat_bzero by done. ring.
  Qed.
End Forms.

(** ** The inverted diagonal *)
Section Setup.
  Context {F : Type} {O : SOps F}.
  Implicit Types (M : srmat F) (d v : list F).
  Lemma jacobi_setup_spec M d : wf_pat M -> wf_diag M -> length (vals M) = nnz M -> length d = nbrows M ->
    nok (jacobi_setup M d) (fun d' => d' = (fun i => s1 / vat (vals M) (dg M i))%s <$> seq 0 (nbrows M)).
  Proof.
    intros Hw Hd Hl Hdl. unfold jacobi_setup.
    apply (nok_par_for_map 0 (nbrows M) _ d (fun i => (s1 / vat (vals M) (dg M i))%s)); [lia| |].
    - intros i s' Hi Hs' _. pose proof (row_bounds M Hw Hd i ltac:(lia)).
      rewrite (proj2 (get_Some _ _ _) (wf_diagind M i Hd ltac:(lia))). simpl. rewrite vat_get by lia. simpl.
      apply set_Ok. lia.
    - intros d' H1 H2 _. apply list_eq_lt; [rewrite fmap_length, seq_length; lia|].
      intros i Hi. rewrite H2 by lia. rewrite list_lookup_fmap, lookup_seq_lt by lia. reflexivity.
  Qed.
  Lemma getblk_val v base k : base + k <= length v -> getblk v base k = Ok (take k (drop base v)).
  Proof.
    intros H. assert (ok (getblk v base k) (fun u => u = take k (drop base v))) as Hok.
    { unfold getblk. eapply ok_mono.
      - apply (ok_mapr _ _ (fun p x => x = vat v (base + p))). intros j p Hj.
        assert (p = j /\ j < k) as [-> Hjk] by (apply lookup_seq in Hj; lia).
        eapply ok_get; [apply vat_Some; lia|reflexivity].
      - intros u [Hu Hk]. rewrite seq_length in Hu. apply list_eq_lt; [rewrite take_length, drop_length; lia|].
        intros j Hj. rewrite lookup_take, lookup_drop, (vat_Some v) by lia.
        rewrite (vat_Some u) by lia. f_equal. apply Hk. apply vat_Some. lia. }
    apply ok_inv in Hok as (u & E & ->). exact E.
  Qed.
  Lemma setblk_val v base seg : base + length seg <= length v ->
    exists v', setblk v base seg = Ok v' /\ length v' = length v /\
      forall l, v' !! l = if decide (base <= l < base + length seg) then seg !! (l - base) else v !! l.
  Proof.
    intros H. destruct (exec_pwseg seg base v H) as (m' & He & Hl & Hk1 & Hk2). unfold setblk. rewrite He. simpl.
    exists m'. split; [reflexivity|]. split; [exact Hl|]. intros l.
    destruct (decide (base <= l < base + length seg)) as [Hb|Hb].
    - replace l with (base + (l - base)) at 1 by lia. apply Hk1. lia.
    - apply Hk2. lia.
  Qed.
  (** a loop that stores one segment of [k] entries per iteration *)
  Lemma nok_par_for_seg n k (body : nat -> list F -> res (list F)) v (seg : nat -> list F) (Q : list F -> Prop) :
    length v = n * k -> (forall i, i < n -> length (seg i) = k) ->
    (forall i v', i < n -> length v' = n * k -> body i v' = setblk v' (i * k) (seg i)) ->
    (forall v', length v' = n * k -> (forall i p, i < n -> p < k -> v' !! (i * k + p) = seg i !! p) -> Q v') ->
    nok (par_for 0 n body v) Q.
  Proof.
    intros Hv Hseg Hb HQ.
    apply (nok_par_for 0 n body v (fun dn v' => length v' = n * k /\
       forall i p, i ∈ dn -> p < k -> v' !! (i * k + p) = seg i !! p)).
    - split; [exact Hv|]. intros i p Hi. apply elem_of_nil in Hi as [].
    - intros dn i v' Hdn Hi Hni [Hl Hd]. rewrite Hb by (auto; lia).
      destruct (setblk_val v' (i * k) (seg i)) as (v2 & -> & Hl2 & Hk2); [rewrite Hseg by lia; nia|].
      simpl. split; [lia|]. intros i' p Hi' Hp. rewrite Hk2, Hseg by lia.
      destruct (decide (i = i')) as [<-|Hne].
      + rewrite decide_True by lia. f_equal. lia.
      + apply elem_of_app in Hi' as [Hi'|Hi']; [|apply elem_of_list_singleton in Hi'; congruence].
        rewrite decide_False; [auto|]. intros Ho. destruct (decide (i < i')); nia.
    - intros l v' Hl [H1 H2]. apply HQ; [exact H1|]. intros i p Hi Hp. apply H2; [|exact Hp].
      rewrite Hl. apply elem_of_range. lia.
  Qed.
  Lemma bjacobi_setup_spec so bs inv M d : wf_pat M -> wf_diag M -> length (vals M) = nnz M * (bs * bs) ->
    length d = nbrows M * (bs * bs) -> inverse_oracle so bs inv ->
    nok (bjacobi_setup inv bs M d) (fun d' => length d' = nbrows M * (bs * bs) /\
      forall i, i < nbrows M -> forall Y, is_inverse bs (bent so bs (vals M) (dg M i)) Y ->
        is_inverse bs (bent so bs (vals M) (dg M i)) (bent so bs d' i)).
  Proof.
    intros Hw Hd Hl Hdl Hor. unfold bjacobi_setup.
    set (blk i := take (bs * bs) (drop (dg M i * (bs * bs)) (vals M))).
    assert (forall i, i < nbrows M -> length (blk i) = bs * bs) as Hblk.
    { intros i Hi. unfold blk. rewrite take_length, drop_length. pose proof (row_bounds M Hw Hd i Hi). nia. }
    apply (nok_par_for_seg (nbrows M) (bs * bs) _ d (fun i => inv (blk i))); [exact Hdl| | |].
    - intros i Hi. apply Hor. auto.
    - intros i v' Hi Hv'. pose proof (row_bounds M Hw Hd i Hi).
      rewrite (proj2 (get_Some _ _ _) (wf_diagind M i Hd Hi)). simpl.
      rewrite getblk_val by nia. reflexivity.
    - intros v' Hv' Hk. split; [exact Hv'|]. intros i Hi Y HY.
      assert (forall p q, p < bs -> q < bs -> bent so bs (blk i) 0 p q = bent so bs (vals M) (dg M i) p q) as E1.
      { intros p q Hp Hq. pose proof (lay_lt so bs p q Hp Hq). unfold bent, blk. rewrite lookup_take, lookup_drop by lia.
        reflexivity. }
      assert (forall p q, p < bs -> q < bs -> bent so bs (inv (blk i)) 0 p q = bent so bs v' i p q) as E2.
      { intros p q Hp Hq. pose proof (lay_lt so bs p q Hp Hq). unfold bent. rewrite Hk by lia. reflexivity. }
      assert (forall X X' Z Z', (forall p q, p < bs -> q < bs -> X p q = X' p q) -> (forall p q, p < bs -> q < bs -> Z p q = Z' p q) ->
        is_inverse bs X Z -> is_inverse bs X' Z') as Hext.
      { intros X X' Z Z' HX HZ HI p q Hp Hq. destruct (HI p q Hp Hq) as [I1 I2]. unfold mprod in *. split.
        - rewrite <- I1. apply bsum_ext. intros k Hk'. rewrite HX, HZ; auto.
        - rewrite <- I2. apply bsum_ext. intros k Hk'. rewrite HX, HZ; auto. }
      apply (Hext _ _ _ _ E1 E2). apply Hor with Y; [auto|].
      apply (Hext _ _ _ _ (fun p q Hp Hq => eq_sym (E1 p q Hp Hq)) (fun p q _ _ => eq_refl) HY).
  Qed.
End Setup.
