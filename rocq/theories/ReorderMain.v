(** * ReorderMain: what orderings and scalings do to matrices and vectors *)
From Verif Require Import Base Alg SRMatrix Async Nd Own TriFacts Helpers IluApply IluApplyFacts Reorder ReorderFacts.

(** an ordering given to setOrdering: nothing, or a permutation of 0..n-1 *)
Definition is_order (n : nat) (x : option (list nat)) : Prop :=
  match x with Some p => p ≡ₚ seq 0 n | None => True end.
(** the index it sends [i] to *)
Definition oget (x : option (list nat)) (i : nat) : nat :=
  match x with Some p => p !!! i | None => i end.

Lemma oget_lt n x i : is_order n x -> i < n -> oget x i < n.
Proof. destruct x as [p|]; simpl; [apply perm_get_lt|auto]. Qed.
Lemma oget_inj n x i j : is_order n x -> i < n -> j < n -> oget x i = oget x j -> i = j.
Proof.
  destruct x as [p|]; simpl; [|auto]. intros H Hi Hj E. apply (perm_inj n p i j (p !!! i) H); [apply (perm_get n); auto|].
  rewrite E. apply (perm_get n); auto.
Qed.
Lemma oget_surj n x v : is_order n x -> v < n -> exists i, i < n /\ oget x i = v.
Proof.
  destruct x as [p|]; simpl; [|eauto]. intros H Hv. destruct (perm_surj n p v H Hv) as (i & Hi & E). exists i.
  split; [exact Hi|]. apply list_lookup_total_correct, E.
Qed.
(** what setOrdering leaves in the object *)
Definition half_of (n : nat) (x : option (list nat)) (p ip : list nat) : Prop :=
  match x with Some q => p = q /\ inverse_perm n q ip | None => p = [] /\ ip = [] end.
Definition order_of (n : nat) rord cord (o : ordering) : Prop :=
  half_of n rord (o_rp o) (o_irp o) /\ half_of n cord (o_cp o) (o_icp o).
Lemma setOrdering_spec n rord cord : is_order n rord -> is_order n cord ->
  ok (setOrdering rord cord n ordering_new) (order_of n rord cord).
Proof.
  intros Hr Hc. unfold setOrdering.
  eapply ok_bind with (P := fun o => half_of n rord (o_rp o) (o_irp o) /\ o_cp o = [] /\ o_icp o = []).
  - destruct rord as [r|]; simpl; [|auto].
    eapply ok_bind; [apply set_half_spec; exact Hr|]. intros [p ip] [-> H]. simpl. auto.
  - intros o (H1 & H2 & H3). destruct cord as [c|]; simpl.
    + eapply ok_bind; [apply set_half_spec; exact Hc|]. intros [p ip] [-> H]. split; simpl; auto.
    + split; simpl; auto.
Qed.
Definition oinv (x : option (list nat)) (ip : list nat) (i : nat) : nat :=
  match x with Some _ => ip !!! i | None => i end.
Lemma half_inv_l n x p ip i : is_order n x -> half_of n x p ip -> i < n -> oinv x ip (oget x i) = i.
Proof.
  destruct x as [q|]; simpl; [|auto]. intros H [-> [_ Hi]] Hlt. apply list_lookup_total_correct. auto.
Qed.
Lemma half_inv_lt n x p ip i : is_order n x -> half_of n x p ip -> i < n -> oinv x ip i < n.
Proof.
  destruct x as [q|]; simpl; [|auto]. intros H [-> Hi] Hlt. apply perm_get_lt; [|exact Hlt]. eapply inverse_perm_perm; eauto.
Qed.
Lemma half_inv_r n x p ip i : is_order n x -> half_of n x p ip -> i < n -> oget x (oinv x ip i) = i.
Proof.
  intros H Hh Hlt. destruct (oget_surj n x i H Hlt) as (k & Hk & <-). f_equal. eapply half_inv_l; eauto.
Qed.
Lemma half_inv_inj n x p ip i j : is_order n x -> half_of n x p ip -> i < n -> j < n -> oinv x ip i = oinv x ip j -> i = j.
Proof.
  intros H Hh Hi Hj E. rewrite <- (half_inv_r n x p ip i), <- (half_inv_r n x p ip j) by auto. rewrite E. reflexivity.
Qed.

Section Main.
  Context {F : Type} {O : SOps F}.
  Implicit Type M : srmat F.
  Variable bs : nat.
  Notation bb := (bs * bs).
  Notation mapped := (mapped bs).

  Lemma mapped_sorted rho kap M M' : wf_pat M -> wf_nodup M -> mapped rho kap M M' ->
    (forall i, i < nbrows M -> rho i < nbrows M) ->
    (forall c c', c < nbrows M -> c' < nbrows M -> kap c = kap c' -> c = c') ->
    (forall i j1 j2, i < nbrows M -> rp M' i <= j1 -> j1 <= j2 -> j2 < rp M' (i + 1) -> col M' j1 <= col M' j2) -> wf_sorted M'.
  Proof.
    intros Hw Hn Hm Hr Hk Hs i j1 j2 Hi H1 H2 H3. rewrite (mp_n _ _ _ _ _ Hm) in Hi.
    pose proof (mapped_nodup bs _ _ _ _ Hw Hn Hm Hr Hk) as Hn'.
    specialize (Hs i j1 j2 Hi H1 ltac:(lia) H3).
    destruct (decide (col M' j1 = col M' j2)) as [E|]; [|lia].
    assert (j1 = j2); [|lia]. apply (Hn' i); auto; [rewrite (mp_n _ _ _ _ _ Hm); exact Hi| |];
      (split; [rewrite (mp_n _ _ _ _ _ Hm); exact Hi|lia]).
  Qed.

  Section Fixed.
  Variables (rord cord : option (list nat)) (o : ordering) (n : nat).
  Hypothesis (Hro : is_order n rord) (Hco : is_order n cord) (Ho : order_of n rord cord o).

  Lemma order_fwd M : n = nbrows M -> wf_pat M -> length (vals M) = nnz M * bb ->
    nok (applyOrdering_mat bs o FORWARD M) (fun M' => mapped (oget rord) (oinv cord (o_icp o)) M M' /\
      (wf_nodup M -> cord <> None \/ wf_sorted M -> wf_sorted M')).
  Proof.
    intros En Hw Hv. subst n. destruct Ho as [Hh1 Hh2]. simpl.
    eapply nok_bind with (P := fun M' => mapped (oget rord) id M M' /\ (wf_sorted M -> wf_sorted M')).
    { destruct rord as [p|]; simpl in *.
      - destruct Hh1 as [-> Hip]. destruct (0 <? length p) eqn:E.
        + apply nok_lift. apply forward_rows_spec; auto.
        + apply Nat.ltb_ge in E. rewrite (perm_length _ _ Hro) in E. apply nok_ret. split; [|auto].
          eapply mapped_ext; [exact Hw|apply mapped_id, Hw|..]; intros; lia.
      - destruct Hh1 as [Er _]. rewrite Er. simpl. apply nok_ret. split; [apply mapped_id, Hw|auto]. }
    intros M1 [Hm Hs1]. pose proof (mp_n _ _ _ _ _ Hm) as Hn1. pose proof (mp_pat _ _ _ _ _ Hm) as Hw1.
    assert (forall i, i < nbrows M -> oget rord i < nbrows M) as Hrl by (intros; apply oget_lt; auto).
    destruct cord as [q|]; simpl in *.
    - destruct Hh2 as [-> Hip]. assert (o_icp o ≡ₚ seq 0 (nbrows M)) as Hpp by (eapply inverse_perm_perm; eauto).
      destruct (0 <? length q) eqn:E.
      + rewrite <- Hn1 in Hpp. eapply nok_mono; [apply rename_cols_spec; [exact Hw1| |exact Hpp]|].
        { rewrite (mp_vals _ _ _ _ _ Hm), (mp_nnz _ _ _ _ _ Hm). exact Hv. }
        intros M2 [Hm2 Hs2]. rewrite Hn1 in *.
        assert (mapped (oget rord) (fun c => o_icp o !!! c) M M2) as Hm12.
        { exact (mapped_trans bs (oget rord) id id (fun c => o_icp o !!! c) M M1 M2 Hm Hm2 (fun _ H => H)). }
        split; [exact Hm12|]. intros Hnd _. eapply mapped_sorted; [exact Hw|exact Hnd|exact Hm12|exact Hrl| |].
        * intros c c' Hc Hc'. eapply (half_inv_inj (nbrows M) (Some q)); eauto. simpl. eauto.
        * intros i j1 j2 Hi H1 H2 H3.
          destruct Hm2 as [B1 B2 B3 B4 B4' B4'' B6 B5].
          assert (forall k, k <= nbrows M -> rp M2 k = rp M1 k) as Hrp.
          { induction k as [|k IH]; intros Hk; [rewrite (wf_0 M2 B2), (wf_0 M1 Hw1); reflexivity|].
            destruct (B5 k ltac:(lia)) as [Hl _]. unfold rowlen in Hl. specialize (IH ltac:(lia)).
            pose proof (wf_mono M2 B2 k ltac:(lia)). pose proof (wf_mono M1 Hw1 k ltac:(lia)). unfold id in Hl.
            replace (S k) with (k + 1) by lia. lia. }
          rewrite Hrp in H1, H3 by lia. apply (Hs2 i); auto.
      + apply Nat.ltb_ge in E. rewrite (perm_length _ _ Hco) in E. apply nok_ret. split.
        * eapply mapped_ext; [exact Hw|exact Hm|..]; auto; intros; lia.
        * intros _ _ i j1 j2 Hi. lia.
    - destruct Hh2 as [Ec _]. rewrite Ec. simpl. apply nok_ret. split; [exact Hm|]. intros _ [H|H]; [congruence|auto].
  Qed.
  Lemma order_inv M : n = nbrows M -> wf_pat M -> length (vals M) = nnz M * bb ->
    nok (applyOrdering_mat bs o INVERSE M) (fun M' => mapped (oinv rord (o_irp o)) (oget cord) M M' /\
      (wf_nodup M -> cord <> None \/ wf_sorted M -> wf_sorted M')).
  Proof.
    intros En Hw Hv. subst n. destruct Ho as [Hh1 Hh2]. simpl.
    assert (forall i, i < nbrows M -> oinv rord (o_irp o) i < nbrows M) as Hrl by (intros; eapply half_inv_lt; eauto).
    eapply nok_bind with (P := fun M' => mapped (oinv rord (o_irp o)) id M M' /\ (wf_sorted M -> wf_sorted M')).
    { destruct rord as [p|]; simpl in *.
      - destruct Hh1 as [-> Hip]. destruct (0 <? length p) eqn:E.
        + apply nok_lift. apply inverse_rows_spec; auto.
        + apply Nat.ltb_ge in E. rewrite (perm_length _ _ Hro) in E. apply nok_ret. split; [|auto].
          eapply mapped_ext; [exact Hw|apply mapped_id, Hw|..]; intros; lia.
      - destruct Hh1 as [Er _]. rewrite Er. simpl. apply nok_ret. split; [apply mapped_id, Hw|auto]. }
    intros M1 [Hm Hs1]. pose proof (mp_n _ _ _ _ _ Hm) as Hn1. pose proof (mp_pat _ _ _ _ _ Hm) as Hw1.
    destruct cord as [q|]; simpl in *.
    - destruct Hh2 as [-> Hip]. assert (q ≡ₚ seq 0 (nbrows M)) as Hpp by exact Hco.
      destruct (0 <? length q) eqn:E.
      + rewrite <- Hn1 in Hpp. eapply nok_mono; [apply rename_cols_spec; [exact Hw1| |exact Hpp]|].
        { rewrite (mp_vals _ _ _ _ _ Hm), (mp_nnz _ _ _ _ _ Hm). exact Hv. }
        intros M2 [Hm2 Hs2]. rewrite Hn1 in *.
        assert (mapped (oinv rord (o_irp o)) (fun c => q !!! c) M M2) as Hm12.
        { exact (mapped_trans bs (oinv rord (o_irp o)) id id (fun c => q !!! c) M M1 M2 Hm Hm2 (fun _ H => H)). }
        split; [exact Hm12|]. intros Hnd _. eapply mapped_sorted; [exact Hw|exact Hnd|exact Hm12|exact Hrl| |].
        * intros c c' Hc Hc'. eapply (oget_inj (nbrows M) (Some q)); eauto.
        * intros i j1 j2 Hi H1 H2 H3.
          destruct Hm2 as [B1 B2 B3 B4 B4' B4'' B6 B5].
          assert (forall k, k <= nbrows M -> rp M2 k = rp M1 k) as Hrp.
          { induction k as [|k IH]; intros Hk; [rewrite (wf_0 M2 B2), (wf_0 M1 Hw1); reflexivity|].
            destruct (B5 k ltac:(lia)) as [Hl _]. unfold rowlen in Hl. specialize (IH ltac:(lia)).
            pose proof (wf_mono M2 B2 k ltac:(lia)). pose proof (wf_mono M1 Hw1 k ltac:(lia)). unfold id in Hl.
            replace (S k) with (k + 1) by lia. lia. }
          rewrite Hrp in H1, H3 by lia. apply (Hs2 i); auto.
      + apply Nat.ltb_ge in E. rewrite (perm_length _ _ Hco) in E. apply nok_ret. split.
        * eapply mapped_ext; [exact Hw|exact Hm|..]; auto; intros; lia.
        * intros _ _ i j1 j2 Hi. lia.
    - destruct Hh2 as [Ec _]. rewrite Ec. simpl. apply nok_ret. split; [exact Hm|]. intros _ [H|H]; [congruence|auto].
  Qed.

  (** vectors *)
  Definition the_ord (dir : RSApplyDir) := match dir with ROW => rord | COLUMN => cord end.
  Lemma order_vec mode dir (vec : list F) : length vec = n * bs ->
    nok (applyOrdering_vec bs o mode dir vec) (fun v => length v = n * bs /\ forall i k, i < n -> k < bs ->
      match mode with
      | FORWARD => v !! (i * bs + k) = vec !! (oget (the_ord dir) i * bs + k)
      | INVERSE => v !! (oget (the_ord dir) i * bs + k) = vec !! (i * bs + k)
      end).
  Proof.
    intros Hl. unfold applyOrdering_vec. cbv zeta.
    assert (exists ip, half_of n (the_ord dir) (match dir with ROW => o_rp o | COLUMN => o_cp o end) ip /\ is_order n (the_ord dir)) as (ip & Hh & Hp).
    { destruct dir; simpl; eexists; split; eauto; apply Ho. }
    set (p := match dir with ROW => o_rp o | COLUMN => o_cp o end) in *. destruct (the_ord dir) as [q|]; simpl in *.
    2: { destruct Hh as [-> _]. simpl. apply nok_ret. split; [exact Hl|]. destruct mode; auto. }
    destruct Hh as [-> _]. pose proof (perm_length _ _ Hp) as Hq. rewrite Hq.
    destruct (n =? 0) eqn:E.
    { apply Nat.eqb_eq in E. apply nok_ret. split; [exact Hl|]. intros; lia. }
    eapply nok_bind; [apply vcopy_spec; [apply replicate_length|exact Hl]|]. intros ? ->.
    set (D := fun i x => exists k, k < bs /\ x = match mode with FORWARD => i * bs + k | INVERSE => q !!! i * bs + k end).
    set (h := fun i x => vec !! (match mode with FORWARD => q !!! i | INVERSE => i end * bs + x mod bs)).
    apply (nok_par_for_own D h).
    - intros i i' x Hi Hi' (k & Hk & ->) (k' & Hk' & E').
      destruct mode; [apply flat_eq in E'; lia|]. apply flat_eq in E' as [E' _]; auto.
      apply (oget_inj n (Some q)); auto; lia.
    - intros i s' Hi Hs' Hsame.
      pose proof (perm_get_lt _ _ i Hp ltac:(lia)) as Hqi.
      apply (ok_for_own (fun k x => x = match mode with FORWARD => i * bs + k | INVERSE => q !!! i * bs + k end)
        (fun _ x => h i x)).
      + lia.
      + intros k k' x _ _ -> E'. destruct mode; lia.
      + intros k s'' Hk Hs'' _. eapply ok_bind; [eapply ok_get; [apply (perm_get n); [exact Hp|lia]|exact eq_refl]|]. intros ? <-.
        assert (i * bs + k < n * bs) by nia. assert (q !!! i * bs + k < n * bs) by nia.
        destruct mode.
        * destruct (lookup_lt_is_Some_2 vec (q !!! i * bs + k)) as [a Ha]; [lia|].
          eapply ok_bind; [eapply ok_get; [exact Ha|exact eq_refl]|]. intros ? <-. apply ok_set; [lia|].
          split; [apply insert_length|]. split.
          -- intros x ->. rewrite list_lookup_insert by lia. unfold h. rewrite flat_mod by lia. auto.
          -- intros x Hx. apply list_lookup_insert_ne. auto.
        * destruct (lookup_lt_is_Some_2 vec (i * bs + k)) as [a Ha]; [lia|].
          eapply ok_bind; [eapply ok_get; [exact Ha|exact eq_refl]|]. intros ? <-. apply ok_set; [lia|].
          split; [apply insert_length|]. split.
          -- intros x ->. rewrite list_lookup_insert by lia. unfold h. rewrite flat_mod by lia. auto.
          -- intros x Hx. apply list_lookup_insert_ne. auto.
      + intros s'' E1 E2 E3. split; [exact E1|]. split.
        * intros x (k & Hk & ->). eapply E2; [|reflexivity]. lia.
        * intros x Hx. apply E3. intros k Hk ->. apply Hx. exists k. split; [lia|reflexivity].
    - intros v E1 E2 _. split; [lia|]. intros i k Hi Hk. destruct mode.
      + rewrite (E2 i); [|lia|exists k; auto]. unfold h. rewrite flat_mod by lia. reflexivity.
      + rewrite (E2 i); [|lia|exists k; auto]. unfold h. rewrite flat_mod by lia. reflexivity.
  Qed.
  End Fixed.

  (** two sorted matrices with the same entries are equal *)
  Lemma mapped_id_eq M M' : wf_pat M -> wf_sorted M -> wf_sorted M' -> length (vals M) = nnz M * bb -> mapped id id M M' -> M' = M.
  Proof.
    intros Hw Hs Hs' Hv Hm. destruct Hm as [B1 B2 B3 B4 B4' B4'' [B6 B6'] B5].
    assert (forall k, k <= nbrows M -> rp M' k = rp M k) as Hrp.
    { induction k as [|k IH]; intros Hk; [rewrite (wf_0 M' B2), (wf_0 M Hw); reflexivity|].
      destruct (B5 k ltac:(lia)) as [Hl _]. unfold rowlen in Hl. specialize (IH ltac:(lia)).
      pose proof (wf_mono M' B2 k ltac:(lia)). pose proof (wf_mono M Hw k ltac:(lia)). unfold id in Hl.
      replace (S k) with (k + 1) by lia. lia. }
    assert (forall i k, i < nbrows M -> k < rowlen M i -> col M' (rp M i + k) = col M (rp M i + k) /\
      forall e, e < bb -> vals M' !! ((rp M i + k) * bb + e) = vals M !! ((rp M i + k) * bb + e)) as Hrow.
    { intros i k Hi Hk. destruct (B5 i Hi) as (Hl & f & Hf & Hinj & Hc). rewrite Hrp in Hc by lia.
      unfold id in *. assert (f k = k) as Hid; [|specialize (Hc k Hk); rewrite Hid in Hc; exact Hc].
      unfold rowlen in *.
      assert (forall a b, a < b -> b < rp M (i + 1) - rp M i -> f a < f b) as Hinc.
      { intros a b Hab Hb. destruct (decide (f a < f b)); [done|exfalso].
        assert (f a <> f b) by (intros E; apply Hinj in E; lia).
        pose proof (Hf a ltac:(lia)). pose proof (Hf b ltac:(lia)).
        assert (col M (rp M i + f b) < col M (rp M i + f a)) as G1 by (apply (Hs i); lia).
        assert (col M' (rp M i + a) < col M' (rp M i + b)) as G2.
        { apply (Hs' i); rewrite ?Hrp by lia; lia. }
        destruct (Hc a ltac:(lia)) as [E1 _]. destruct (Hc b ltac:(lia)) as [E2 _]. lia. }
      assert (forall a, a < rp M (i + 1) - rp M i -> a <= f a) as Hge.
      { induction a as [|a IH]; intros Ha; [lia|]. pose proof (Hinc a (S a) ltac:(lia) Ha). specialize (IH ltac:(lia)). lia. }
      assert (forall d a, a + d = rp M (i + 1) - rp M i -> 0 < d -> f a <= a) as Hle.
      { induction d as [|d IH]; intros a Ha Hd; [lia|]. destruct (decide (d = 0)) as [->|]; [specialize (Hf a); lia|].
        specialize (IH (S a) ltac:(lia) ltac:(lia)). pose proof (Hinc a (S a) ltac:(lia) ltac:(lia)). lia. }
      specialize (Hge k Hk). specialize (Hle (rp M (i + 1) - rp M i - k) k ltac:(lia) ltac:(lia)). lia. }
    destruct M as [m1 m2 m3 m4 m5 m6 m7 m8], M' as [m1' m2' m3' m4' m5' m6' m7' m8']. simpl in *. subst.
    set (M := SR m1 m2 m3 m4 m5 m6 m7 m8) in *. set (M' := SR m1' m2' m3' m4 m5 m6 m7 m8) in *.
    assert (m1' = m1) as E1.
    { pose proof (wf_len M Hw) as L1. pose proof (wf_len M' B2) as L2. simpl in L1, L2.
      apply list_eq_lt; [lia|]. intros i Hi. change m1' with (browptr M'). change m1 with (browptr M).
      rewrite (wf_browptr M' i B2), (wf_browptr M i Hw) by (simpl; lia). rewrite Hrp by (simpl; lia). reflexivity. }
    assert (m2' = m2) as E2.
    { pose proof (wf_clen M Hw) as L1. pose proof (wf_clen M' B2) as L2. simpl in L1, L2. rewrite B4 in L2.
      apply list_eq_lt; [lia|]. intros j Hj. change m2' with (bcolind M'). change m2 with (bcolind M).
      rewrite (wf_bcolind M' j B2), (wf_bcolind M j Hw) by lia. f_equal.
      destruct (inrow_exists M j Hw ltac:(lia)) as (i & Hi & Hij). destruct (Hrow i (j - rp M i) Hi) as [E _]; [unfold rowlen; lia|].
      replace (rp M i + (j - rp M i)) with j in E by lia. exact E. }
    assert (m3' = m3) as E3.
    { apply list_eq_lt; [lia|]. intros x Hx. assert (0 < bb) by nia.
      assert (x / bb < nnz M) as Hxb by (apply Nat.div_lt_upper_bound; lia).
      destruct (inrow_exists M (x / bb) Hw Hxb) as (i & Hi & Hij). destruct (Hrow i (x / bb - rp M i) Hi) as [_ E]; [unfold rowlen; lia|].
      specialize (E (x mod bb) ltac:(apply Nat.mod_upper_bound; lia)). replace (rp M i + (x / bb - rp M i)) with (x / bb) in E by lia.
      rewrite (Nat.mul_comm (x / bb)), <- Nat.div_mod in E by lia. exact E. }
    subst. reflexivity.
  Qed.

  (** ** Scaling *)
  (** the factor of [i]; no factors: nothing is done *)
  Definition scl (mode : RSApplyMode) (s : list F) (i : nat) (x : F) : F :=
    match s !! i with Some a => scale_op mode x a | None => x end.
  Definition is_scale (n : nat) (s : list F) : Prop := s = [] \/ length s = n.

  Lemma scale_vec n sc mode dir (vec : list F) : length vec = n * bs ->
    is_scale n (rowscale sc) -> is_scale n (colscale sc) ->
    nok (applyScaling_vec bs sc mode dir vec) (fun v => length v = n * bs /\ forall i k, i < n -> k < bs ->
      v !! (i * bs + k) = scl mode (match dir with ROW => rowscale sc | COLUMN => colscale sc end) i <$> vec !! (i * bs + k)).
  Proof.
    intros Hl H1 H2. unfold applyScaling_vec. cbv zeta.
    set (s := match dir with ROW => rowscale sc | COLUMN => colscale sc end).
    assert (is_scale n s) as Hs by (unfold s; destruct dir; auto). clearbody s. clear H1 H2.
    destruct (0 <? length s) eqn:E.
    2: { apply Nat.ltb_ge in E. destruct s as [|a s]; [|simpl in E; lia]. apply nok_ret. split; [exact Hl|].
      intros i k _ _. unfold scl. simpl. destruct (vec !! (i * bs + k)); reflexivity. }
    destruct Hs as [->|Hs]; [simpl in E; discriminate|]. rewrite Hs.
    apply (nok_par_for_own (fun i x => i * bs <= x < i * bs + bs) (fun i x => scl mode s i <$> vec !! x)).
    - intros i i' x _ _ Hx Hx'. destruct (decide (i < i')); [nia|]. destruct (decide (i' < i)); [nia|]. lia.
    - intros i s' Hi Hs' Hsame.
      apply (ok_for_own (fun k x => x = i * bs + k) (fun _ x => scl mode s i <$> vec !! x)).
      + lia.
      + intros; lia.
      + intros k s'' Hk Hs'' Hsame'. assert (i * bs + k < n * bs) by nia.
        destruct (lookup_lt_is_Some_2 vec (i * bs + k)) as [a Ha]; [lia|].
        eapply ok_bind; [eapply ok_get; [rewrite Hsame', Hsame by lia; exact Ha|exact eq_refl]|]. intros ? <-.
        destruct (lookup_lt_is_Some_2 s i) as [b Hb]; [lia|].
        eapply ok_bind; [eapply ok_get; [exact Hb|exact eq_refl]|]. intros ? <-. apply ok_set; [lia|].
        split; [apply insert_length|]. split.
        * intros x ->. rewrite list_lookup_insert by lia. rewrite Ha. unfold scl. rewrite Hb. reflexivity.
        * intros x Hx. apply list_lookup_insert_ne. auto.
      + intros s'' E1 E2 E3. split; [exact E1|]. split.
        * intros x Hx. apply (E2 (x - i * bs)); lia.
        * intros x Hx. apply E3. intros k Hk ->. apply Hx. lia.
    - intros v E1 E2 _. split; [lia|]. intros i k Hi Hk. apply E2; lia.
  Qed.
  (** every block of a row *)
  Lemma scale_rows M (body : nat -> nat -> list F -> res (list F)) (g : nat -> nat -> F -> F) v : wf_pat M -> length v = nnz M * bb ->
    (forall i j v', inrow M i j -> length v' = length v -> (forall x, j * bb <= x < j * bb + bb -> v' !! x = v !! x) ->
       ok (body i j v') (owns (fun j x => j * bb <= x < j * bb + bb) (fun j x => g i j <$> v !! x) j v')) ->
    nok (par_for 0 (nbrows M) (fun i v =>
      let! lo := get (browptr M) i in let! hi := get (browptr M) (i + 1) in for_ lo hi (body i) v) v)
      (fun v' => length v' = length v /\ forall i j e, inrow M i j -> e < bb -> v' !! (j * bb + e) = g i j <$> v !! (j * bb + e)).
  Proof.
    intros Hw Hv Hb.
    apply (nok_par_for_own (fun i x => rp M i * bb <= x < rp M (i + 1) * bb) (fun i x => g i (x / bb) <$> v !! x)).
    - intros i i' x Hi Hi' Hx Hx'. destruct (decide (i < i')).
      { pose proof (rp_mono M (i + 1) i' Hw ltac:(lia) ltac:(lia)). nia. }
      destruct (decide (i' < i)); [|lia]. pose proof (rp_mono M (i' + 1) i Hw ltac:(lia) ltac:(lia)). nia.
    - intros i s' Hi Hs' Hsame.
      eapply ok_bind; [eapply ok_get; [apply (wf_browptr M _ Hw); lia|exact eq_refl]|]. intros ? <-.
      eapply ok_bind; [eapply ok_get; [apply (wf_browptr M _ Hw); lia|exact eq_refl]|]. intros ? <-.
      pose proof (wf_mono M Hw i ltac:(lia)).
      apply (ok_for_own (fun j x => j * bb <= x < j * bb + bb) (fun j x => g i j <$> v !! x)).
      + lia.
      + intros j j' x _ _ Hx Hx'. destruct (decide (j < j')); [nia|]. destruct (decide (j' < j)); [nia|]. lia.
      + intros j s'' Hj Hs'' Hsame'. apply Hb; [split; [lia|exact Hj]|lia|].
        intros x Hx. rewrite Hsame' by exact Hx. apply Hsame. nia.
      + intros s'' E1 E2 E3. split; [exact E1|]. split.
        * intros x Hx. assert (0 < bb) by nia. apply E2.
          -- split; [apply Nat.div_le_lower_bound|apply Nat.div_lt_upper_bound]; lia.
          -- pose proof (Nat.div_mod x bb ltac:(lia)). pose proof (Nat.mod_upper_bound x bb ltac:(lia)). lia.
        * intros x Hx. apply E3. intros j Hj Hjx. apply Hx. nia.
    - intros v' E1 E2 _. split; [exact E1|]. intros i j e [Hi Hj] He. rewrite (E2 i) by nia. rewrite flat_div by lia. reflexivity.
  Qed.
  Lemma scale_block (f : F -> F) v0 j v : length v = length v0 -> j * bb + bb <= length v ->
    (forall x, j * bb <= x < j * bb + bb -> v !! x = v0 !! x) ->
    ok (for_ 0 bb (fun k v => let! x := get v (j * bb + k) in set v (j * bb + k) (f x)) v)
      (owns (fun j x => j * bb <= x < j * bb + bb) (fun j x => f <$> v0 !! x) j v).
  Proof.
    intros Hl Hj Hsame. apply (ok_for_own (fun k x => x = j * bb + k) (fun _ x => f <$> v0 !! x)).
    - lia.
    - intros; lia.
    - intros k s' Hk Hs' Hsame'. destruct (lookup_lt_is_Some_2 v0 (j * bb + k)) as [a Ha]; [lia|].
      eapply ok_bind; [eapply ok_get; [rewrite Hsame', Hsame by lia; exact Ha|exact eq_refl]|]. intros ? <-. apply ok_set; [lia|].
      split; [apply insert_length|]. split.
      + intros x ->. rewrite list_lookup_insert by lia. rewrite Ha. reflexivity.
      + intros x Hx. apply list_lookup_insert_ne. auto.
    - intros s' E1 E2 E3. split; [exact E1|]. split.
      + intros x Hx. apply (E2 (x - j * bb)); lia.
      + intros x Hx. apply E3. intros k Hk ->. apply Hx. lia.
  Qed.
  Lemma scale_mat sc mode M : wf_pat M -> length (vals M) = nnz M * bb ->
    is_scale (nbrows M) (rowscale sc) -> is_scale (nbrows M) (colscale sc) ->
    nok (applyScaling_mat bs sc mode M) (fun M' => exists v, M' = with_arrays M (browptr M) (bcolind M) v /\ length v = length (vals M) /\
      forall i j e, inrow M i j -> e < bb ->
        v !! (j * bb + e) = (fun x => scl mode (colscale sc) (col M j) (scl mode (rowscale sc) i x)) <$> vals M !! (j * bb + e)).
  Proof.
    intros Hw Hv Hr Hc. unfold applyScaling_mat.
    assert (forall i j, inrow M i j -> j * bb + bb <= nnz M * bb) as Hjb.
    { intros i j Hij. apply inrow_lt in Hij; [nia|exact Hw]. }
    eapply nok_bind with (P := fun v => length v = length (vals M) /\ forall i j e, inrow M i j -> e < bb ->
      v !! (j * bb + e) = scl mode (rowscale sc) i <$> vals M !! (j * bb + e)).
    { destruct (0 <? length (rowscale sc)) eqn:E.
      - destruct Hr as [Hr|Hr]; [rewrite Hr in E; discriminate|].
        apply (nok_par_for_own (fun i x => rp M i * bb <= x < rp M (i + 1) * bb) (fun i x => scl mode (rowscale sc) i <$> vals M !! x)).
        + intros i i' x Hi Hi' Hx Hx'. destruct (decide (i < i')).
          { pose proof (rp_mono M (i + 1) i' Hw ltac:(lia) ltac:(lia)). nia. }
          destruct (decide (i' < i)); [|lia]. pose proof (rp_mono M (i' + 1) i Hw ltac:(lia) ltac:(lia)). nia.
        + intros i s' Hi Hs' Hsame. destruct (lookup_lt_is_Some_2 (rowscale sc) i) as [b Hb]; [lia|].
          eapply ok_bind; [eapply ok_get; [exact Hb|exact eq_refl]|]. intros ? <-.
          eapply ok_bind; [eapply ok_get; [apply (wf_browptr M _ Hw); lia|exact eq_refl]|]. intros ? <-.
          eapply ok_bind; [eapply ok_get; [apply (wf_browptr M _ Hw); lia|exact eq_refl]|]. intros ? <-.
          pose proof (wf_mono M Hw i ltac:(lia)).
          apply (ok_for_own (fun j x => j * bb <= x < j * bb + bb) (fun _ x => scl mode (rowscale sc) i <$> vals M !! x)).
          * lia.
          * intros j j' x _ _ Hx Hx'. destruct (decide (j < j')); [nia|]. destruct (decide (j' < j)); [nia|]. lia.
          * intros j s'' Hj Hs'' Hsame'. pose proof (Hjb i j ltac:(split; lia)).
            eapply ok_mono; [apply (scale_block (fun x => scale_op mode x b) (vals M)); [lia|lia|]|].
            { intros x Hx. rewrite Hsame' by exact Hx. apply Hsame. nia. }
            intros s3 (A1 & A2 & A3). split; [exact A1|]. split; [|exact A3]. intros x Hx. rewrite A2 by exact Hx.
            unfold scl. rewrite Hb. reflexivity.
          * intros s'' E1 E2 E3. split; [exact E1|]. split.
            -- intros x Hx. assert (0 < bb) by nia. apply (E2 (x / bb)).
               ++ split; [apply Nat.div_le_lower_bound|apply Nat.div_lt_upper_bound]; lia.
               ++ pose proof (Nat.div_mod x bb ltac:(lia)). pose proof (Nat.mod_upper_bound x bb ltac:(lia)). lia.
            -- intros x Hx. apply E3. intros j Hj Hjx. apply Hx. nia.
        + intros v' E1 E2 _. split; [exact E1|]. intros i j e [Hi Hj] He. apply (E2 i); [lia|nia].
      - apply Nat.ltb_ge in E. apply nok_ret. split; [reflexivity|]. intros i j e _ _. unfold scl.
        rewrite (lookup_ge_None_2 (rowscale sc) i) by lia. destruct (vals M !! _); reflexivity. }
    intros v1 [L1 V1].
    eapply nok_bind with (P := fun v => length v = length v1 /\ forall i j e, inrow M i j -> e < bb ->
      v !! (j * bb + e) = scl mode (colscale sc) (col M j) <$> v1 !! (j * bb + e)).
    { destruct (0 <? length (colscale sc)) eqn:E.
      - destruct Hc as [Hc|Hc]; [rewrite Hc in E; discriminate|].
        apply (scale_rows M (fun _ jj v => _) (fun _ j => scl mode (colscale sc) (col M j))); [exact Hw|lia|].
        intros i j v' Hij Hl Hsame. pose proof (inrow_lt M i j Hw Hij) as Hjn.
        eapply ok_bind; [eapply ok_get; [apply (wf_bcolind M _ Hw Hjn)|exact eq_refl]|]. intros ? <-.
        destruct (lookup_lt_is_Some_2 (colscale sc) (col M j)) as [b Hb]; [rewrite Hc; apply (wf_col M Hw), Hjn|].
        eapply ok_bind; [eapply ok_get; [exact Hb|exact eq_refl]|]. intros ? <-. pose proof (Hjb i j Hij).
        eapply ok_mono; [apply (scale_block (fun x => scale_op mode x b) v1); [lia|lia|exact Hsame]|].
        intros s3 (A1 & A2 & A3). split; [exact A1|]. split; [|exact A3]. intros x Hx. rewrite A2 by exact Hx.
        unfold scl. rewrite Hb. reflexivity.
      - apply Nat.ltb_ge in E. apply nok_ret. split; [reflexivity|]. intros i j e _ _. unfold scl.
        rewrite (lookup_ge_None_2 (colscale sc) (col M j)) by lia. destruct (v1 !! _); reflexivity. }
    intros v2 [L2 V2]. apply nok_ret. exists v2. split; [reflexivity|]. split; [lia|].
    intros i j e Hij He. rewrite (V2 i j e Hij He), (V1 i j e Hij He). destruct (vals M !! (j * bb + e)); reflexivity.
  Qed.
End Main.
