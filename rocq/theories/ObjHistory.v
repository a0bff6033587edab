(** * ObjHistory: objects used any number of times *)
From Coq Require Import ZArith.
From Verif Require Import Base Alg SRMatrix Async AsyncTheory AsyncSystem AsyncSweeps Nd Kernels KernelFacts IluApply IluApplyFacts TriSpec TriFacts
  IluApplyMain IluPattern IluFactor IluFactorMain Sgs SgsFacts SgsForms SgsMain Memory Levels PropLevels ColMat PropColMat Coo CooFacts PropIluInit Factory Petsc Objects ObjFacts.
Open Scope nat_scope.

(** ** Histories *)
Section Lived.
  Context {F : Type} {O : SOps F}.
  Variables (ssqrt sabs : F -> F) (inv : list F -> list F).
  (** [lived p maxthr M0 M st]: [st] is a state of an object of class [p] after compute() and any further calls of compute(), apply()
      and setApplyParams(), all of which returned, with at most [maxthr] threads. The matrices had the pattern of [M0] and any values,
      also when apply() was called; [M] was the matrix in the last compute(). (apply_relax() changes nothing in an object.) *)
  Inductive lived (p : prec) (maxthr : nat) (M0 : srmat F) : srmat F -> @pstate F -> Prop :=
  | lv_first nthr g pg M st info :
      1 <= nthr <= maxthr -> same_pattern M0 M -> fits (pshape p) M ->
      obj_compute ssqrt sabs inv nthr g p M (p_new pg) (Ok (st, info)) -> lived p maxthr M0 M st
  | lv_again nthr g M1 st1 M st info :
      lived p maxthr M0 M1 st1 -> 1 <= nthr <= maxthr -> same_pattern M0 M -> fits (pshape p) M ->
      obj_compute ssqrt sabs inv nthr g p M st1 (Ok (st, info)) -> lived p maxthr M0 M st
  | lv_apply nthr g M st1 M1 r z st z' :
      lived p maxthr M0 M st1 -> 1 <= nthr <= maxthr -> same_pattern M0 M1 -> fits (pshape p) M1 ->
      length r = obj_dim p M -> length z = obj_dim p M ->
      obj_apply nthr g p M1 st1 r z (Ok (st, z')) -> lived p maxthr M0 M st
  | lv_params a M st : lived p maxthr M0 M st -> lived p maxthr M0 M (set_params a st).
End Lived.
(** what compute() needs: for level scheduling, a symmetric pattern; for blocks, that inverting small matrices works *)
Definition needs_symmetry (p : prec) : bool := match p with PLevelSgs _ | PLevelIlu _ _ => true | _ => false end.
Definition well_equipped {F} {O : SOps F} (inv : list F -> list F) (p : prec) (M0 : srmat F) : Prop :=
  wf_mat M0 /\ (needs_symmetry p = true -> sym_pattern M0) /\
  match p with PNone _ => True | PIlu sh _ | PLevelIlu sh _ => lawful inv sh /\ wf_end M0 | _ => lawful inv (pshape p) end.

Section Sane.
  Context {F : Type} {O : SOps F}.
  Variables (ssqrt sabs : F -> F) (inv : list F -> list F).
  Implicit Types (M : srmat F) (sh : shape) (st : @pstate F).

  Lemma level_fwd_length w (C : nat -> @P F (list F)) levels nthr m m' :
    level_fwd w C levels nthr m (Ok m') -> length m' = length m.
  Proof.
    unfold level_fwd, nfor. intros H.
    assert (forall (body : nat -> list F -> nd (list F)), (forall i a b, body i a (Ok b) -> length b = length a) ->
      forall k i a b, nfor_n k i body a (Ok b) -> length b = length a) as Hn.
    { intros body Hb k. induction k as [|k IH]; intros i a b Hi; cbn [nfor_n] in Hi.
      - apply nret_Ok in Hi. congruence.
      - apply nbind_Ok in Hi as (m1 & H1 & Hi). rewrite (IH _ _ _ Hi). eapply Hb, H1. }
    refine (Hn _ _ _ _ _ _ H). intros i a b Hi.
    apply nbind_Ok in Hi as (lo & _ & Hi). apply nbind_Ok in Hi as (hi & _ & (q & _ & [(m2 & Hr & E)|[E _]])); [|discriminate].
    injection E as ->. eapply region_length; eauto.
  Qed.
  Lemma level_sgs_work w (fgsC bgsC : list F -> nat -> @P F (list F)) levels y nthr r z y' z' :
    level_sgs_apply w fgsC bgsC levels y nthr r z (Ok (y', z')) -> length y' = length y.
  Proof.
    intros H. apply nbind_Ok in H as (y1 & H1 & H). apply nbind_Ok in H as (z1 & _ & H). apply nret_Ok in H. injection H as -> ->.
    eapply level_fwd_length; eauto.
  Qed.
  Lemma level_ilu_work w n (lowC upC : list F -> nat -> @P F (list F)) levels s y nthr r z y' z' :
    level_ilu0_apply w n lowC upC levels s y nthr r z (Ok (y', z')) -> length y' = length y.
  Proof.
    intros H. apply nbind_Ok in H as (z0 & _ & H). apply nbind_Ok in H as (y1 & H1 & H).
    apply nbind_Ok in H as (z1 & _ & H). apply nbind_Ok in H as (z2 & _ & H). apply nret_Ok in H. injection H as -> ->.
    eapply level_fwd_length; eauto.
  Qed.

  Definition sane (p : prec) maxthr M0 M st : Prop :=
    same_pattern M0 M /\ fits (pshape p) M /\
    match p with
    | PNone _ | PReorderedIlu _ => True
    | PJacobi sh | PChaotic sh _ _ => holds_d inv sh M st
    | PSgs sh _ _ _ => holds_d inv sh M st /\ holds_y sh M st
    | PLevelSgs sh => holds_d inv sh M st /\ holds_y sh M st /\ valid_levels M (p_levels st)
    | PCscBgs _ _ => holds_csc M st
    | PIlu sh i => holds_ilu ssqrt sabs inv sh i M0 M maxthr st
    | PLevelIlu sh i => holds_ilu ssqrt sabs inv sh i M0 M maxthr st /\ valid_levels M (p_levels st)
    end.
  Lemma sane_params p maxthr M0 M st a : sane p maxthr M0 M st -> sane p maxthr M0 M (set_params a st).
  Proof. destruct p; exact (fun H => H). Qed.

  Lemma valid_levels_pattern M M' levels : same_pattern M M' -> valid_levels M levels -> valid_levels M' levels.
  Proof. destruct M, M'. intros (H1 & H2 & H3 & H4 & H5). simpl in *. subst. intros H. exact H. Qed.
  Lemma sym_pattern_same M M' : same_pattern M M' -> sym_pattern M -> sym_pattern M'.
  Proof. destruct M, M'. intros (H1 & H2 & H3 & H4 & H5). simpl in *. subst. intros H. exact H. Qed.
  Lemma same_pattern_trans M1 M2 M3 : same_pattern M1 M2 -> same_pattern M2 M3 -> same_pattern M1 M3.
  Proof. intros (A1 & A2 & A3 & A4 & A5) (B1 & B2 & B3 & B4 & B5). repeat split; congruence. Qed.
  Lemma shaped_pattern sh M M' st : same_pattern M M' -> shaped_d sh M st -> shaped_d sh M' st.
  Proof. intros (E & _) H d Hd. rewrite <- E. auto. Qed.
  Lemma csc_shaped M st : holds_csc M st -> shaped_d Scalar M st.
  Proof. intros (C & E & _) d E'. rewrite E in E'. injection E' as <-. rewrite fmap_length, seq_length. simpl. lia. Qed.

  (** compute() on a new object or on one that has been used *)
  Lemma sane_compute p maxthr M0 nthr g M st st' info : well_equipped inv p M0 ->
    1 <= nthr <= maxthr -> same_pattern M0 M -> fits (pshape p) M ->
    (exists pg, st = p_new pg) \/ (exists M1, sane p maxthr M0 M1 st) ->
    obj_compute ssqrt sabs inv nthr g p M st (Ok (st', info)) -> sane p maxthr M0 M st'.
  Proof.
    intros (HM0 & Hsym & Heq) Hn Hp Hf Hst H. pose proof (same_pattern_wf _ _ Hp HM0) as HM.
    split; [exact Hp|]. split; [exact Hf|].
    assert (forall M1, same_pattern M0 M1 -> same_pattern M1 M) as Hback.
    { intros M1 H1. apply (same_pattern_trans M1 M0); [apply same_pattern_sym, H1|exact Hp]. }
    assert (forall sh, (forall M1, sane p maxthr M0 M1 st -> holds_d inv sh M1 st) -> shaped_d sh M st) as Hshaped.
    { intros sh Hd. destruct Hst as [[pg ->]|(M1 & Hs)]; [intros d E; discriminate|].
      apply (shaped_pattern sh M1); [apply Hback, Hs|]. eapply holds_shaped. apply Hd, Hs. }
    assert (forall i, obj_compute ssqrt sabs inv nthr g (PNone 0) M st (Ok (st', i)) -> True) as _ by auto.
    destruct p as [sh|sh na ch|na ch|sh na ai ch|sh|sh i|sh i|i|bs]; cbn [obj_compute pshape needs_symmetry] in *.
    - apply nbind_Ok in H as (st1 & H & E). apply nret_Ok in E. injection E as -> _.
      apply (nok_out _ _ _ (jacobi_compute_ok inv sh g M st HM Hf Heq (Hshaped sh (fun M1 Hs => proj2 (proj2 Hs)))) H).
    - apply nbind_Ok in H as (st1 & H & E). apply nret_Ok in E. injection E as -> _.
      apply (nok_out _ _ _ (jacobi_compute_ok inv sh g M st HM Hf Heq (Hshaped sh (fun M1 Hs => proj2 (proj2 Hs)))) H).
    - apply nbind_Ok in H as (st1 & H & E). apply nret_Ok in E. injection E as -> _.
      refine (nok_out _ _ _ (cscbgs_compute_ok g M st HM Hf _) H).
      destruct Hst as [[pg ->]|(M1 & Hs & _ & Hc)]; [intros d E; discriminate|].
      apply (shaped_pattern _ M1); [apply Hback, Hs|]. apply csc_shaped, Hc.
    - apply nbind_Ok in H as (st1 & H & E). apply nret_Ok in E. injection E as -> _.
      refine (nok_out _ _ _ (sgs_compute_ok inv sh g M st HM Hf Heq (Hshaped sh (fun M1 Hs => proj1 (proj2 (proj2 Hs)))) _) H).
      destruct Hst as [[pg ->]|(M1 & Hs & _ & _ & Hy)]; [left; reflexivity|right]. eapply holds_y_pattern; [apply Hback, Hs|exact Hy].
    - apply nbind_Ok in H as (st1 & H & E). apply nret_Ok in E. injection E as -> _.
      refine (nok_out _ _ _ (level_sgs_compute_ok inv sh g M st HM (sym_pattern_same _ _ Hp (Hsym eq_refl)) Hf Heq (Hshaped sh (fun M1 Hs => proj1 (proj2 (proj2 Hs)))) _) H).
      destruct Hst as [[pg ->]|(M1 & Hs & _ & _ & Hy & Hl)]; [left; reflexivity|right].
      split; [eapply holds_y_pattern; [apply Hback, Hs|exact Hy]|eapply valid_levels_pattern; [apply Hback, Hs|exact Hl]].
    - destruct Hst as [[pg ->]|(M1 & Hs & _ & Hi)].
      + eapply (ilu_compute_Ok ssqrt sabs inv sh i maxthr nthr g M0 M M); [exact Hn|exact Hp|exact Hf| |exact H].
        left. split; [reflexivity|]. split; [reflexivity|]. destruct sh; constructor.
      + eapply (ilu_compute_Ok ssqrt sabs inv sh i maxthr nthr g M0 M M1); [exact Hn|exact Hp|exact Hf| |exact H]. right. auto.
    - unfold level_ilu_compute in H. apply nbind_Ok in H as (st1 & H1 & H).
      destruct Hst as [[pg ->]|(M1 & Hs & _ & Hi & Hl)].
      + cbn [p_new p_ilu ilu_new st_ilu] in H1. apply nbind_Ok in H1 as (levels & Hlev & E). apply nret_Ok in E. subst st1.
        assert (valid_levels M levels) as Hv.
        { destruct HM as (Hw & Hdg & Hss). destruct (C26_valid_levels F M (nbrows M) Hw Hss) as (l' & E & Hv & _); [|eapply sym_pattern_same; eauto|lia|].
          - intros k Hk. rewrite (pos_diag M k (sorted_nodup M Hss) Hdg Hk). discriminate.
          - unfold nlift in Hlev. rewrite E in Hlev. injection Hlev as <-. exact Hv. }
        destruct (ilu_compute_Ok ssqrt sabs inv sh i maxthr nthr g M0 M M
          (PState (p_d (p_new pg)) (p_y (p_new pg)) (p_ilu (p_new pg)) levels (p_csc (p_new pg)) (p_par (p_new pg))) st' info) as [K1 K2]; auto.
        * left. split; [reflexivity|]. split; [reflexivity|]. destruct sh; constructor.
        * split; [exact K1|]. rewrite K2. exact Hv.
      + assert (st1 = st) as ->.
        { destruct Hi as (_ & _ & s1 & gi & gs & gd & nt & inf & _ & _ & _ & _ & _ & _ & Hlast). apply (ilu_some ssqrt sabs inv sh i M0) in Hlast.
          destruct (st_ilu (p_ilu st)); [|congruence]. apply nret_Ok in H1. exact H1. }
        destruct (ilu_compute_Ok ssqrt sabs inv sh i maxthr nthr g M0 M M1 st st' info) as [K1 K2]; auto.
        split; [exact K1|]. rewrite K2. eapply valid_levels_pattern; [apply Hback, Hs|exact Hl].
    - exact Logic.I.
    - exact Logic.I.
  Qed.
  Lemma sane_apply p maxthr M0 M nthr g M1 st r z st' z' : sane p maxthr M0 M st -> same_pattern M0 M1 ->
    obj_apply nthr g p M1 st r z (Ok (st', z')) -> sane p maxthr M0 M st'.
  Proof.
    intros (Hp & Hf & Hst) Hp1 H. split; [exact Hp|]. split; [exact Hf|].
    assert (nbrows M1 = nbrows M) as En by (destruct Hp as (? & _), Hp1 as (? & _); congruence).
    assert (forall A (x : option A) B (k : A -> nd B) o, member x k (Ok o) -> exists a, x = Some a /\ k a (Ok o)) as Hmem.
    { intros A x B k o Hx. destruct x as [a|]; [eauto|discriminate]. }
    assert (forall B c (k : nat -> nd B) o, chunked c k (Ok o) -> k (Z.to_nat c) (Ok o)) as Hch.
    { intros B c k o Hx. unfold chunked in Hx. destruct (c <=? 0)%Z; [discriminate|exact Hx]. }
    assert (forall sh y, holds_y sh M st -> (forall y0, p_y st = Some y0 -> length y0 = nbrows M1 * width sh -> length y = nbrows M1 * width sh) -> holds_y sh M (with_y st y)) as Hy.
    { intros sh y (y0 & E & Hl) H0. exists y. split; [reflexivity|]. rewrite <- En. apply (H0 y0 E). rewrite En. exact Hl. }
    destruct p as [sh|sh na ch|na ch|sh na ai ch|sh|sh i|sh i|i|bs]; cbn [obj_apply] in H.
    - apply Hmem in H as (d & _ & H). apply nbind_Ok in H as (z1 & _ & H). apply nret_Ok in H. injection H as -> _. exact Hst.
    - apply Hmem in H as (d & _ & H). apply Hch in H. apply nbind_Ok in H as (z1 & _ & H). apply nret_Ok in H. injection H as -> _. exact Hst.
    - apply Hmem in H as (d & _ & H). apply Hmem in H as (C & _ & H). apply Hch in H.
      destruct (Nat.eqb nthr 1).
      + apply nbind_Ok in H as (z1 & _ & H). apply nret_Ok in H. injection H as -> _. exact Hst.
      + rewrite (H _ _ eq_refl). exact Hst.
    - apply Hmem in H as (d & _ & H). apply Hmem in H as (y & Ey & H). apply Hch in H. apply nbind_Ok in H as ([y1 z1] & H & E).
      apply nret_Ok in E. injection E as -> _. destruct Hst as [H1 H2]. split; [exact H1|]. apply Hy; [exact H2|].
      intros y0 E0 Hl0. rewrite Ey in E0. injection E0 as <-. eapply sgs_apply_work; [exact Hl0|exact H].
    - apply Hmem in H as (d & _ & H). apply Hmem in H as (y & Ey & H). apply nbind_Ok in H as ([y1 z1] & H & E).
      apply nret_Ok in E. injection E as -> _. destruct Hst as (H1 & H2 & H3). split; [exact H1|]. split; [|exact H3]. apply Hy; [exact H2|].
      intros y0 E0 Hl0. rewrite Ey in E0. injection E0 as <-. rewrite <- Hl0. eapply level_sgs_work. exact H.
    - apply Hmem in H as (y & Ey & H). apply Hmem in H as (lu & _ & H). apply Hch in H. apply nbind_Ok in H as ([y1 z1] & H & E).
      apply nret_Ok in E. injection E as -> _. destruct Hst as (H1 & H2 & H3). split; [exact H1|]. split; [|exact H3]. apply Hy; [exact H2|].
      intros y0 E0 Hl0. rewrite Ey in E0. injection E0 as <-. destruct sh; (eapply ilu0_apply_work; [exact Hl0|exact H]).
    - apply Hmem in H as (y & Ey & H). apply Hmem in H as (lu & _ & H). apply nbind_Ok in H as ([y1 z1] & H & E).
      apply nret_Ok in E. injection E as -> _. destruct Hst as ((H1 & H2 & H3) & H4). split; [|exact H4].
      split; [exact H1|]. split; [|exact H3]. apply Hy; [exact H2|].
      intros y0 E0 Hl0. rewrite Ey in E0. injection E0 as <-. rewrite <- Hl0. destruct sh; eapply level_ilu_work; exact H.
    - exact Logic.I.
    - exact Logic.I.
  Qed.
  Theorem lived_sane p maxthr M0 M st : well_equipped inv p M0 -> lived ssqrt sabs inv p maxthr M0 M st -> sane p maxthr M0 M st.
  Proof.
    intros Heq H. induction H.
    - eapply sane_compute; eauto.
    - eapply sane_compute; eauto.
    - eapply sane_apply; eauto.
    - apply sane_params. assumption.
  Qed.
End Sane.
