(** * MatvecFacts: what the products compute *)
From Verif Require Import Base Alg SRMatrix Nd Matvec KernelFacts TriFacts Own IluFactorProofs.

Section Facts.
  Context {F : Type} {O : SOps F}.
  Implicit Type M : srmat F.

  (** [init + t lo + t (lo+1) + ...], added from the left *)
  Definition facc (init : F) (t : nat -> F) (lo hi : nat) : F := foldl (fun acc j => acc + t j)%s init (range lo hi).
  Lemma facc_nil init t lo : facc init t lo lo = init.
  Proof. unfold facc. rewrite range_nil by lia. reflexivity. Qed.
  Lemma facc_snoc init t lo j : lo <= j -> facc init t lo (j + 1) = (facc init t lo j + t j)%s.
  Proof. intros H. unfold facc. rewrite range_snoc, foldl_app by exact H. reflexivity. Qed.

  Lemma accum_row lo hi i (t : nat -> F) (body : nat -> list F -> res (list F)) (y : list F) init :
    lo <= hi -> y !! i = Some init ->
    (forall jj y' v, lo <= jj < hi -> length y' = length y -> y' !! i = Some v -> body jj y' = Ok (<[i := (v + t jj)%s]> y')) ->
    for_ lo hi body y = Ok (<[i := facc init t lo hi]> y).
  Proof.
    intros Hle Hi Hb. assert (i < length y) as Hl by (apply lookup_lt_is_Some; eauto).
    enough (ok (for_ lo hi body y) (fun y' => y' = <[i := facc init t lo hi]> y)) as H.
    { apply ok_inv in H as (y' & E & ->). exact E. }
    eapply ok_for_post with (I := fun j y' => y' = <[i := facc init t lo j]> y).
    - exact Hle.
    - rewrite facc_nil. symmetry. apply list_insert_id. exact Hi.
    - intros j y' Hj ->. rewrite (Hb j _ (facc init t lo j)).
      + simpl. rewrite list_insert_insert, facc_snoc by lia. reflexivity.
      + exact Hj.
      + rewrite insert_length. reflexivity.
      + apply list_lookup_insert, Hl.
    - auto.
  Qed.

  (** ** Scalar *)
  Section Scalar.
    Variables (M : srmat F) (x : list F).
    Hypothesis Hw : wf_pat M.
    Hypothesis Hv : length (vals M) = nnz M.
    Hypothesis Hx : length x = nbrows M.
    Lemma csr_apply_spec y : length y = nbrows M ->
      nok (csr_apply M x y) (fun y' => length y' = nbrows M /\ forall i, i < nbrows M ->
        y' !! i = Some (facc s0 (fun jj => vat (vals M) jj * vat x (col M jj))%s (rp M i) (rp M (i + 1)))).
    Proof.
      intros Hy. unfold csr_apply.
      apply nok_par_for_map with (g := fun i => facc s0 (fun jj => vat (vals M) jj * vat x (col M jj))%s (rp M i) (rp M (i + 1))).
      - lia.
      - intros i s Hi Hs _. rewrite set_Ok by lia. cbn [bind].
        pose proof (wf_browptr M i Hw ltac:(lia)) as E. apply get_Some in E. rewrite E. cbn [bind]. clear E.
        pose proof (wf_browptr M (i + 1) Hw ltac:(lia)) as E. apply get_Some in E. rewrite E. cbn [bind]. clear E.
        assert ((<[i:=s0]> s) !! i = Some s0) as E0 by (apply list_lookup_insert; lia).
        rewrite (accum_row (rp M i) (rp M (i + 1)) i (fun jj => vat (vals M) jj * vat x (col M jj))%s _ _ _ (rp_mono M i (i + 1) Hw ltac:(lia) ltac:(lia)) E0).
        + rewrite list_insert_insert. reflexivity.
        + intros jj y' v Hjj Hl Hyi. assert (inrow M i jj) as Hin by (split; lia). pose proof (inrow_lt M i jj Hw Hin) as Hn.
          apply get_Some in Hyi. rewrite Hyi. cbn [bind]. rewrite vat_get by lia. cbn [bind].
          pose proof (wf_bcolind M jj Hw Hn) as E. apply get_Some in E. rewrite E. cbn [bind].
          rewrite vat_get by (rewrite Hx; apply (wf_col M Hw); exact Hn). cbn [bind]. apply set_Ok.
          rewrite Hl, insert_length. lia.
      - intros s' Hs' Hin _. split; [lia|]. intros i Hi. apply Hin. lia.
    Qed.
    Lemma csr_gemv3_spec a b y z : length z = nbrows M -> length (arg_y y z) = nbrows M ->
      nok (csr_gemv3 M a x b y z) (fun z' => length z' = nbrows M /\ forall i, i < nbrows M ->
        z' !! i = Some (facc (b * vat (arg_y y z) i)%s (fun jj => a * vat (vals M) jj * vat x (col M jj))%s (rp M i) (rp M (i + 1)))).
    Proof.
      intros Hz Hy. unfold csr_gemv3.
      apply nok_par_for_map with (g := fun i => facc (b * vat (arg_y y z) i)%s (fun jj => a * vat (vals M) jj * vat x (col M jj))%s (rp M i) (rp M (i + 1))).
      - lia.
      - intros i s Hi Hs Hsi.
        assert (arg_y y s !! i = Some (vat (arg_y y z) i)) as E.
        { rewrite <- vat_Some by lia. destruct y; [reflexivity|]. exact Hsi. }
        apply get_Some in E. rewrite E. cbn [bind]. clear E.
        rewrite set_Ok by lia. cbn [bind].
        pose proof (wf_browptr M i Hw ltac:(lia)) as E. apply get_Some in E. rewrite E. cbn [bind]. clear E.
        pose proof (wf_browptr M (i + 1) Hw ltac:(lia)) as E. apply get_Some in E. rewrite E. cbn [bind]. clear E.
        assert ((<[i:=(b * vat (arg_y y z) i)%s]> s) !! i = Some (b * vat (arg_y y z) i)%s) as E0 by (apply list_lookup_insert; lia).
        rewrite (accum_row (rp M i) (rp M (i + 1)) i (fun jj => a * vat (vals M) jj * vat x (col M jj))%s _ _ _ (rp_mono M i (i + 1) Hw ltac:(lia) ltac:(lia)) E0).
        + rewrite list_insert_insert. reflexivity.
        + intros jj y' v Hjj Hl Hyi. assert (inrow M i jj) as Hin by (split; lia). pose proof (inrow_lt M i jj Hw Hin) as Hn.
          apply get_Some in Hyi. rewrite Hyi. cbn [bind]. rewrite vat_get by lia. cbn [bind].
          pose proof (wf_bcolind M jj Hw Hn) as E. apply get_Some in E. rewrite E. cbn [bind].
          rewrite vat_get by (rewrite Hx; apply (wf_col M Hw); exact Hn). cbn [bind]. apply set_Ok.
          rewrite Hl, insert_length. lia.
      - intros s' Hs' Hin _. split; [lia|]. intros i Hi. apply Hin. lia.
    Qed.
  End Scalar.

  (** ** Blocks *)
  Section Block.
    Variables (so : storage) (bs : nat) (M : srmat F) (x : list F).
    Hypothesis Hw : wf_pat M.
    Hypothesis Hv : length (vals M) = nnz M * (bs * bs).
    Hypothesis Hx : length x = nbrows M * bs.
    (** row [p] of the block at [jj], times the segment of x *)
    Definition bterm (g : F -> F) (jj p : nat) : F :=
      facc s0 (fun q => g (bent so bs (vals M) jj p q) * vat x (col M jj * bs + q))%s 0 bs.
    Lemma blk_times_seg_spec g jj : jj < nnz M ->
      ok (blk_times_seg so bs g (vals M) x jj (col M jj)) (fun t => t = (bterm g jj) <$> seq 0 bs).
    Proof.
      intros Hj. pose proof (wf_col M Hw jj Hj) as Hc.
      eapply ok_mono; [apply ok_mapr with (Q := fun p t => t = bterm g jj p)|].
      - intros p p' Hp. apply lookup_seq in Hp as [-> Hp].
        eapply ok_for_post with (I := fun q acc => acc = facc s0 (fun q => g (bent so bs (vals M) jj p q) * vat x (col M jj * bs + q))%s 0 q).
        + lia.
        + rewrite facc_nil. reflexivity.
        + intros q acc Hq ->. cbn [Nat.add]. pose proof (lay_lt so bs p q Hp ltac:(lia)).
          assert (jj * (bs * bs) + lay so bs p q < length (vals M)) by nia.
          rewrite vat_get by assumption. cbn [bind]. rewrite vat_get by (rewrite Hx; nia). cbn [bind].
          rewrite facc_snoc by lia. reflexivity.
        + auto.
      - intros t [Hl Ht]. rewrite seq_length in Hl. apply list_eq_lt; [rewrite fmap_length, seq_length; exact Hl|].
        intros p Hp. rewrite list_lookup_fmap, lookup_seq_lt by lia. simpl.
        destruct (lookup_lt_is_Some_2 t p) as [v E]; [lia|]. rewrite E. f_equal. apply Ht, E.
    Qed.
    Definition seg_of (i k : nat) : Prop := i * bs <= k < (i + 1) * bs.
    Lemma seg_inj i i' k : seg_of i k -> seg_of i' k -> i = i'.
    Proof. unfold seg_of. nia. Qed.
    Lemma seg_fill (body : nat -> list F -> res (list F)) (f : nat -> F) i y :
      (i + 1) * bs <= length y ->
      (forall p y', p < bs -> length y' = length y -> y' !! (i * bs + p) = y !! (i * bs + p) ->
        body p y' = Ok (<[i * bs + p := f p]> y')) ->
      ok (for_ 0 bs body y) (fun y' => owns seg_of (fun i k => Some (f (k - i * bs))) i y y').
    Proof.
      intros Hl Hb. apply ok_for_own with (D := fun p k => k = i * bs + p) (h := fun p k => Some (f p)).
      - lia.
      - intros; lia.
      - intros p y' Hp Hl' E. rewrite (Hb p y') by (try lia; auto). simpl. split; [apply insert_length|]. split.
        + intros k ->. apply list_lookup_insert. lia.
        + intros k Hk. apply list_lookup_insert_ne. lia.
      - intros y' Hl' H1 H2. split; [exact Hl'|]. split.
        + intros k Hk. unfold seg_of in Hk. apply (H1 (k - i * bs)); lia.
        + intros k Hk. unfold seg_of in Hk. apply H2. intros p Hp ->. apply Hk. lia.
    Qed.
    Lemma seg_accum (g : F -> F) (init : nat -> F) i y : i < nbrows M ->
      length y = nbrows M * bs -> (forall p, p < bs -> y !! (i * bs + p) = Some (init p)) ->
      ok (for_ (rp M i) (rp M (i + 1)) (fun jj y =>
        let! c := get (bcolind M) jj in
        let! t := blk_times_seg so bs g (vals M) x jj c in
        add_seg bs y i t) y)
       (owns seg_of (fun i k => Some (facc (init (k - i * bs)) (fun jj => bterm g jj (k - i * bs)) (rp M i) (rp M (i + 1)))) i y).
    Proof.
      intros Hi Hl Hin. assert ((i + 1) * bs <= length y) as Hs by nia.
      eapply ok_for_post with (I := fun j y' =>
        owns seg_of (fun i k => Some (facc (init (k - i * bs)) (fun jj => bterm g jj (k - i * bs)) (rp M i) j)) i y y').
      - apply rp_mono; [exact Hw|lia|lia].
      - split; [reflexivity|]. split; [|reflexivity]. intros k Hk. unfold seg_of in Hk. rewrite facc_nil.
        rewrite <- Hin by lia. f_equal. lia.
      - intros jj y' Hj (E1 & E2 & E3). assert (inrow M i jj) as Hr by (split; lia). pose proof (inrow_lt M i jj Hw Hr) as Hn.
        eapply ok_bind; [eapply ok_get; [apply (wf_bcolind M _ Hw); lia|exact eq_refl]|]. intros ? <-.
        eapply ok_bind; [apply blk_times_seg_spec; exact Hn|]. intros ? ->.
        unfold add_seg.
        eapply ok_mono; [apply (seg_fill _ (fun p => facc (init p) (fun jj => bterm g jj p) (rp M i) jj + bterm g jj p)%s i); [lia|]|].
        + intros p y'' Hp Hl'' E. rewrite E2 in E by (unfold seg_of; lia). replace (i * bs + p - i * bs) with p in E by lia.
          apply get_Some in E. rewrite E. cbn [bind].
          assert (get (bterm g jj <$> seq 0 bs) p = Ok (bterm g jj p)) as ->.
          { apply get_Some. rewrite list_lookup_fmap, lookup_seq_lt by lia. reflexivity. }
          cbn [bind]. apply set_Ok. nia.
        + intros y'' (D1 & D2 & D3). split; [lia|]. split.
          * intros k Hk. rewrite D2 by exact Hk. rewrite facc_snoc by lia. reflexivity.
          * intros k Hk. rewrite D3 by exact Hk. apply E3, Hk.
      - auto.
    Qed.
    Lemma bsr_apply_spec y : length y = nbrows M * bs ->
      nok (bsr_apply so bs M x y) (fun y' => length y' = nbrows M * bs /\ forall i p, i < nbrows M -> p < bs ->
        y' !! (i * bs + p) = Some (facc s0 (fun jj => bterm id jj p) (rp M i) (rp M (i + 1)))).
    Proof.
      intros Hy. unfold bsr_apply.
      apply nok_par_for_own with (D := seg_of) (h := fun i k => Some (facc s0 (fun jj => bterm id jj (k - i * bs)) (rp M i) (rp M (i + 1)))).
      - intros. eapply seg_inj; eauto.
      - intros i s Hi Hs _.
        eapply ok_bind; [apply (seg_fill _ (fun _ => s0) i); [nia|]|].
        { intros p s' Hp Hl _. apply set_Ok. nia. }
        intros s1 (E1 & E2 & E3).
        eapply ok_bind; [eapply ok_get; [apply (wf_browptr M _ Hw); lia|exact eq_refl]|]. intros ? <-.
        eapply ok_bind; [eapply ok_get; [apply (wf_browptr M _ Hw); lia|exact eq_refl]|]. intros ? <-.
        eapply ok_mono; [apply (seg_accum id (fun _ => s0)); [lia|lia|]|].
        + intros p Hp. apply E2. unfold seg_of. lia.
        + intros s2 (D1 & D2 & D3). split; [lia|]. split; [exact D2|]. intros k Hk. rewrite D3 by exact Hk. apply E3, Hk.
      - intros s' Hl Hin _. split; [lia|]. intros i p Hi Hp. rewrite (Hin i) by (unfold seg_of; lia).
        replace (i * bs + p - i * bs) with p by lia. reflexivity.
    Qed.
    Lemma bsr_gemv3_spec a b y z : length z = nbrows M * bs -> length (arg_y y z) = nbrows M * bs ->
      nok (bsr_gemv3 so bs M a x b y z) (fun z' => length z' = nbrows M * bs /\ forall i p, i < nbrows M -> p < bs ->
        z' !! (i * bs + p) = Some (facc (b * vat (arg_y y z) (i * bs + p))%s (fun jj => bterm (fun v => a * v)%s jj p) (rp M i) (rp M (i + 1)))).
    Proof.
      intros Hz Hy. unfold bsr_gemv3.
      apply nok_par_for_own with (D := seg_of)
        (h := fun i k => Some (facc (b * vat (arg_y y z) (i * bs + (k - i * bs)))%s (fun jj => bterm (fun v => a * v)%s jj (k - i * bs)) (rp M i) (rp M (i + 1)))).
      - intros. eapply seg_inj; eauto.
      - intros i s Hi Hs Hsi.
        eapply ok_bind; [apply (seg_fill _ (fun p => b * vat (arg_y y z) (i * bs + p))%s i); [nia|]|].
        { intros p s' Hp Hl E.
          assert (arg_y y s' !! (i * bs + p) = Some (vat (arg_y y z) (i * bs + p))) as E'.
          { rewrite <- vat_Some by nia. destruct y; [reflexivity|]. simpl. rewrite E. apply Hsi. unfold seg_of. lia. }
          apply get_Some in E'. rewrite E'. cbn [bind]. apply set_Ok. nia. }
        intros s1 (E1 & E2 & E3).
        eapply ok_bind; [eapply ok_get; [apply (wf_browptr M _ Hw); lia|exact eq_refl]|]. intros ? <-.
        eapply ok_bind; [eapply ok_get; [apply (wf_browptr M _ Hw); lia|exact eq_refl]|]. intros ? <-.
        eapply ok_mono; [apply (seg_accum (fun v => a * v)%s (fun p => b * vat (arg_y y z) (i * bs + p))%s); [lia|lia|]|].
        + intros p Hp. rewrite E2 by (unfold seg_of; lia). do 4 f_equal. lia.
        + intros s2 (D1 & D2 & D3). split; [lia|]. split; [exact D2|]. intros k Hk. rewrite D3 by exact Hk. apply E3, Hk.
      - intros s' Hl Hin _. split; [lia|]. intros i p Hi Hp. rewrite (Hin i) by (unfold seg_of; lia).
        replace (i * bs + p - i * bs) with p by lia. reflexivity.
    Qed.
  End Block.
End Facts.
