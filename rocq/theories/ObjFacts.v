(** * ObjFacts: what preconditioner objects contain after any history of calls *)
From Coq Require Import ZArith.
From Verif Require Import Base Alg SRMatrix Async AsyncTheory AsyncSystem AsyncSweeps Nd Kernels KernelFacts IluApply IluApplyFacts TriSpec TriFacts
  IluApplyMain IluPattern IluFactor IluFactorMain Sgs SgsFacts SgsForms SgsMain Memory Levels PropLevels ColMat PropColMat Coo CooFacts PropIluInit Factory Petsc Objects.
Open Scope nat_scope.

Lemma nok_at {A B} (m : nd A) (k : A -> nd B) a Q : nok (nbind m k) Q -> nok m (fun x => x = a) -> nok (k a) Q.
Proof. intros H Hm. destruct (nok_bind_inv m k _ Q H Hm) as (a' & -> & Hk). exact Hk. Qed.
Lemma nok_out {A} (m : nd A) Q a : nok m Q -> m (Ok a) -> Q a.
Proof. intros [_ H] Ha. exact (H _ Ha). Qed.
Lemma nok_exists {A} (m : nd A) Q : nok m Q -> exists a, m (Ok a) /\ Q a.
Proof. intros [[o Ho] H]. specialize (H o Ho) as Hq. destruct o as [a| | |]; simpl in Hq; try tauto. eauto. Qed.
Lemma nret_Ok {A} (a b : A) : nret a (Ok b) -> b = a.
Proof. intros E. injection E as ->. reflexivity. Qed.

Section Facts.
  Context {F : Type} {O : SOps F}.
  Variables (ssqrt sabs : F -> F) (slt : F -> F -> bool) (inv : list F -> list F).
  Implicit Types (M : srmat F) (sh : shape) (st : @pstate F).
  Notation setup_of := (setup_of inv).

  Definition lawful sh : Prop := match sh with Scalar => True | Blocks bs so => 1 <= bs /\ inverse_oracle so bs inv end.
  Definition fits sh M : Prop := length (vals M) = nnz M * bsize sh.

  (** ** The inverted diagonal *)
  Lemma setup_det sh M : wf_mat M -> fits sh M -> lawful sh -> exists e, length e = nbrows M * bsize sh /\
    forall d, length d = nbrows M * bsize sh -> nok (setup_of sh M d) (fun d' => d' = e).
  Proof.
    intros (Hw & Hd & Hs) Hf Hl. unfold fits in Hf. destruct sh as [|bs so]; cbn [bsize Objects.setup_of lawful] in *.
    - eexists. split; [|intros d Hdl; apply jacobi_setup_spec; auto; lia]. rewrite fmap_length, seq_length. lia.
    - destruct Hl as [Hb Hor].
      set (blk i := take (bs * bs) (drop (dg M i * (bs * bs)) (vals M))).
      assert (forall i, i < nbrows M -> length (blk i) = bs * bs) as Hblk.
      { intros i Hi. unfold blk. rewrite take_length, drop_length. pose proof (row_bounds M Hw Hd i Hi). nia. }
      assert (forall d (Q : list F -> Prop), length d = nbrows M * (bs * bs) ->
        (forall v', length v' = nbrows M * (bs * bs) -> (forall i p, i < nbrows M -> p < bs * bs -> v' !! (i * (bs * bs) + p) = inv (blk i) !! p) -> Q v') ->
        nok (bjacobi_setup inv bs M d) Q) as Hspec.
      { intros d Q Hdl HQ. unfold bjacobi_setup.
        apply (nok_par_for_seg (nbrows M) (bs * bs) _ d (fun i => inv (blk i))); [exact Hdl| | |exact HQ].
        - intros i Hi. apply Hor. auto.
        - intros i v' Hi Hv'. pose proof (row_bounds M Hw Hd i Hi).
          rewrite (proj2 (get_Some _ _ _) (wf_diagind M i Hd Hi)). simpl.
          rewrite getblk_val by nia. reflexivity. }
      assert (length (replicate (nbrows M * (bs * bs)) s0) = nbrows M * (bs * bs)) as Hr by apply replicate_length.
      destruct (nok_exists _ _ (Hspec _ (fun v' => length v' = nbrows M * (bs * bs) /\
        forall i p, i < nbrows M -> p < bs * bs -> v' !! (i * (bs * bs) + p) = inv (blk i) !! p) Hr (fun v' a b => conj a b))) as (e & _ & He1 & He2).
      exists e. split; [exact He1|]. intros d Hdl. apply Hspec; [exact Hdl|]. intros v' Hv1 Hv2.
      apply list_eq. intros k. destruct (decide (k < nbrows M * (bs * bs))) as [Hk|Hk].
      + assert (bs * bs <> 0) as Hnz by nia. pose proof (Nat.div_mod k (bs * bs) Hnz) as Ek.
        pose proof (Nat.mod_upper_bound k (bs * bs) Hnz) as Hm.
        assert (k / (bs * bs) < nbrows M) as Hq by (apply Nat.div_lt_upper_bound; lia).
        rewrite Ek, (Nat.mul_comm (bs * bs)). rewrite Hv2, He2 by done. reflexivity.
      + rewrite !lookup_ge_None_2 by lia. reflexivity.
  Qed.

  (** ** Invariants of the members; [M]: the matrix of the last set-up *)
  Definition holds_d sh M (st : @pstate F) : Prop := exists d, p_d st = Some d /\ length d = nbrows M * bsize sh /\
    forall d0, length d0 = nbrows M * bsize sh -> nok (setup_of sh M d0) (fun d' => d' = d).
  Definition holds_y sh M (st : @pstate F) : Prop := exists y, p_y st = Some y /\ length y = nbrows M * width sh.
  (** usable for another set-up *)
  Definition shaped_d sh M (st : @pstate F) : Prop := forall d, p_d st = Some d -> length d = nbrows M * bsize sh.
  Lemma holds_shaped sh M st : holds_d sh M st -> shaped_d sh M st.
  Proof. intros (d & E & Hl & _) d' E'. congruence. Qed.
  Lemma jacobi_compute_ok sh g M st : wf_mat M -> fits sh M -> lawful sh -> shaped_d sh M st ->
    nok (jacobi_compute inv sh g M st) (fun st' => holds_d sh M st' /\ p_y st' = p_y st /\ p_ilu st' = p_ilu st /\
      p_levels st' = p_levels st /\ p_csc st' = p_csc st /\ p_par st' = p_par st).
  Proof.
    intros HM Hf Hl Hd. unfold jacobi_compute. destruct (setup_det sh M HM Hf Hl) as (e & He & Hdet).
    apply (nok_bind _ _ (fun d => d = e)).
    - apply Hdet. destruct (p_d st) as [d|] eqn:E; [apply Hd, E|apply alloc_length].
    - intros d ->. apply nok_ret. split; [|auto]. exists e. cbn [p_d]. auto.
  Qed.
  Lemma sgs_compute_ok sh g M st : wf_mat M -> fits sh M -> lawful sh -> shaped_d sh M st ->
    p_y st = None \/ holds_y sh M st ->
    nok (sgs_compute inv sh g M st) (fun st' => holds_d sh M st' /\ holds_y sh M st').
  Proof.
    intros HM Hf Hl Hd Hy. unfold sgs_compute. eapply nok_bind; [apply jacobi_compute_ok; auto|].
    intros st1 (H1 & H2 & _). rewrite H2. destruct Hy as [->|(y & Ey & Hyl)].
    - eapply nok_bind; [apply fill_spec, alloc_length|]. intros y ->. apply nok_ret. split; [exact H1|].
      eexists. split; [reflexivity|]. apply replicate_length.
    - rewrite Ey. apply nok_ret. split; [exact H1|]. exists y. rewrite H2. auto.
  Qed.
  Lemma level_sgs_compute_ok sh g M st : wf_mat M -> sym_pattern M -> fits sh M -> lawful sh -> shaped_d sh M st ->
    p_y st = None \/ (holds_y sh M st /\ valid_levels M (p_levels st)) ->
    nok (level_sgs_compute inv sh g M st) (fun st' => holds_d sh M st' /\ holds_y sh M st' /\ valid_levels M (p_levels st')).
  Proof.
    intros HM Hsym Hf Hl Hd Hy. unfold level_sgs_compute.
    apply (nok_bind _ _ (fun st1 => shaped_d sh M st1 /\ holds_y sh M st1 /\ valid_levels M (p_levels st1))).
    - destruct Hy as [Ey|[(y & Ey & Hyl) Hlev]]; rewrite Ey.
      + destruct HM as (Hw & Hdg & Hs).
        destruct (C26_valid_levels F M (nbrows M) Hw Hs) as (levels & E & Hv & _); [|exact Hsym|lia|].
        { intros i Hi. rewrite (pos_diag M i (sorted_nodup M Hs) Hdg Hi). discriminate. }
        rewrite E. apply (nok_bind _ _ (fun l => l = levels)); [apply nok_lift; simpl; reflexivity|]. intros l ->. apply nok_ret.
        split; [exact Hd|]. split; [|exact Hv]. eexists. split; [reflexivity|]. apply alloc_length.
      + apply nok_ret. split; [exact Hd|]. split; [|exact Hlev]. exists y. auto.
    - intros st1 (H1 & H2 & H3). eapply nok_mono; [apply jacobi_compute_ok; auto|].
      intros st' (K1 & K2 & _ & K4 & _). split; [exact K1|]. split.
      + destruct H2 as (y & Ey & Hyl). exists y. rewrite K2. auto.
      + rewrite K4. exact H3.
  Qed.
  Definition holds_csc M (st : @pstate F) : Prop := exists C,
    p_d st = Some ((fun i => s1 / vat (vals M) (dg M i))%s <$> seq 0 (nbrows M)) /\ p_csc st = Some C /\ is_column_form 1 M C.
  Lemma cscbgs_compute_ok g M st : wf_mat M -> fits Scalar M -> shaped_d Scalar M st ->
    nok (cscbgs_compute g M st) (holds_csc M).
  Proof.
    intros HM Hf Hd. unfold cscbgs_compute. unfold shaped_d, fits in *. cbn [bsize] in *. eapply nok_bind.
    - apply csc_compute_ok; try apply alloc_length; [exact HM|exact Hf|].
      destruct (p_d st) as [d|]; [rewrite (Hd d eq_refl); lia|apply alloc_length].
    - intros [d C] [-> HC]. apply nok_ret. exists C. auto.
  Qed.

  (** ILU: the factorisation was made for [M], by an object with any history *)
  Definition ilu_hist sh (i : ilu) M0 (s : @ilu_state F) : Prop :=
    match sh with
    | Scalar => scalar_history ssqrt sabs (i_scale i) M0 s
    | Blocks bs so => block_history ssqrt sabs inv so bs (i_scale i) M0 s
    end.
  Definition ilu_compute_of sh (i : ilu) chunk nthr gi gs gd M (s : @ilu_state F) : nd (ilu_state * option (F * F)) :=
    match sh with
    | Scalar => scalar_ilu0_compute ssqrt sabs (Z.to_nat (i_nbuild i)) chunk (i_tfactor i) nthr (i_finit i) (i_scale i) (i_info i) gi gs M s
    | Blocks bs so => block_ilu0_compute ssqrt sabs inv so bs (Z.to_nat (i_nbuild i)) chunk (i_tfactor i) nthr (i_finit i) (i_scale i) (i_info i) gi gs gd M s
    end.
  Definition holds_ilu sh (i : ilu) M0 M maxthr (st : @pstate F) : Prop :=
    ilu_hist sh i M0 (p_ilu st) /\ holds_y sh M st /\
    exists s0 gi gs gd nthr info, ilu_hist sh i M0 s0 /\ 1 <= nthr <= maxthr /\ (0 < i_chunk i)%Z /\
      length gi = nnz M * bsize sh /\ length gs = nbrows M * width sh /\ length gd = nbrows M * bsize sh /\
      ilu_compute_of sh i (Z.to_nat (i_chunk i)) nthr gi gs gd M s0 (Ok (p_ilu st, info)).
  Lemma holds_y_pattern sh M M' st : same_pattern M M' -> holds_y sh M st -> holds_y sh M' st.
  Proof. intros (En & _) (y & Ey & Hl). exists y. rewrite <- En. auto. Qed.
  Lemma ilu_some sh i M0 M s s' nthr gi gs gd info : 
    ilu_compute_of sh i (Z.to_nat (i_chunk i)) nthr gi gs gd M s (Ok (s', info)) -> st_ilu s' <> None.
  Proof.
    intros H. destruct sh; cbn [ilu_compute_of] in H; [unfold scalar_ilu0_compute in H|unfold block_ilu0_compute in H];
      apply nbind_Ok in H as ([[a b] c] & _ & H); apply nbind_Ok in H as ([[a' b'] c'] & _ & H);
      apply nret_Ok in H; injection H as -> _; discriminate.
  Qed.
  Lemma ilu_compute_Ok sh i maxthr nthr g M0 M M1 st st' info : 1 <= nthr <= maxthr ->
    same_pattern M0 M -> fits sh M -> 
    (st_ilu (p_ilu st) = None /\ p_y st = None /\ ilu_hist sh i M0 (p_ilu st)) \/ (holds_ilu sh i M0 M1 maxthr st /\ same_pattern M0 M1) ->
    ilu_compute ssqrt sabs inv sh i nthr g M st (Ok (st', info)) ->
    holds_ilu sh i M0 M maxthr st' /\ p_levels st' = p_levels st.
  Proof.
    intros Hn Hp Hf Hst H. unfold ilu_compute, chunked in H. destruct (Z.leb_spec (i_chunk i) 0) as [|Hc]; [discriminate|].
    apply nbind_Ok in H as (y & Hy & H). apply nbind_Ok in H as ([s info'] & Hs & H). apply nret_Ok in H. injection H as -> ->.
    split; [|reflexivity]. change (match sh with Scalar => _ | Blocks bs so => _ end) with
      (ilu_compute_of sh i (Z.to_nat (i_chunk i)) nthr (alloc (fr_v g 2) (nnz M * bsize sh)) (alloc (fr_v g 3) (nbrows M * width sh))
         (alloc (fr_v g 4) (nbrows M * bsize sh)) M (p_ilu st)) in Hs.
    assert (ilu_hist sh i M0 (p_ilu st)) as Hh by (destruct Hst as [(_ & _ & Hh)|[[Hh _] _]]; exact Hh).
    split; [|split].
    - cbn [p_ilu]. destruct sh as [|bs so]; cbn [ilu_hist ilu_compute_of bsize width] in *; unfold fits in Hf; cbn [bsize] in Hf.
      + eapply sh_compute; [exact Hh|exact Hp|lia| | | | |exact Hs]; rewrite ?alloc_length; lia.
      + eapply bh_compute; [exact Hh|exact Hp|exact Hf| | | | | |exact Hs]; rewrite ?alloc_length; lia.
    - destruct Hst as [(E1 & E2 & _)|[(_ & (y' & Ey & Hyl) & Hlast) Hp1]].
      + rewrite E1, E2 in Hy. apply nbind_Ok in Hy as (y' & Hfill & Hy). apply nret_Ok in Hy. subst y.
        exists y'. split; [reflexivity|]. pose proof (nok_out _ _ _ (fill_spec _ _ _ (alloc_length _ _)) Hfill) as ->. apply replicate_length.
      + destruct Hlast as (s1 & gi & gs & gd & nt & inf & _ & _ & _ & _ & _ & _ & Hlast). apply (ilu_some sh i M0) in Hlast.
        destruct (st_ilu (p_ilu st)); [|congruence]. rewrite Ey in Hy. apply nret_Ok in Hy. subst y.
        exists y'. split; [reflexivity|]. destruct Hp as (En & _), Hp1 as (En1 & _). congruence.
    - exists (p_ilu st). do 5 eexists. split; [exact Hh|]. split; [exact Hn|]. split; [exact Hc|].
      split; [|split; [|split; [|exact Hs]]]; apply alloc_length.
  Qed.
End Facts.
