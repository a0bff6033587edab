(** * ReduceFacts: programs that make the same reads and writes have the same outcomes;
    in exact arithmetic the order of summation does not matter *)
From Verif Require Import Base Alg SRMatrix Async AsyncTheory AsyncSystem Nd Kernels KernelFacts IluApply Sgs Reduce.

(** In order and without fused operations the kernels are those of Kernels.v. *)
Section Plain.
  Context {F : Type} {O : SOps F}.
  Lemma low_plain : low_with sdot = scalar_lowC.
  Proof. reflexivity. Qed.
  Lemma up_plain : up_with sdot = scalar_upC.
  Proof. reflexivity. Qed.
  Lemma fgs_plain : fgs_with sdot = scalar_fgsC.
  Proof. reflexivity. Qed.
  Lemma bgs_plain : bgs_with sdot msub_plain = scalar_bgsC.
  Proof. reflexivity. Qed.
  Lemma relax_plain : relax_with sdot = scalar_relaxC.
  Proof. reflexivity. Qed.
End Plain.

(** ** Programs that do the same *)
Section Prel.
  Context {V : Type}.
  Notation P := (@P V).
  Fixpoint prel {A B} (Q : A -> B -> Prop) (p : P A) (p' : P B) : Prop :=
    match p, p' with
    | Ret a, Ret b => Q a b
    | Rd l k, Rd l' k' => l = l' /\ forall v, prel Q (k v) (k' v)
    | Wr l v k, Wr l' v' k' => l = l' /\ v = v' /\ prel Q k k'
    | Bad, Bad => True
    | _, _ => False
    end.
  Notation peq := (prel eq).

  Lemma prel_mono {A B} (Q Q' : A -> B -> Prop) p p' : (forall a b, Q a b -> Q' a b) -> prel Q p p' -> prel Q' p p'.
  Proof.
    intros HQ. revert p'. induction p as [a|l k IH|l v k IH|]; intros [b|l' k'|l' v' k'|]; simpl; auto.
    - intros [E H]. split; [exact E|]. intros v. apply IH, H.
    - intros (E & E' & H). auto.
  Qed.
  Lemma prel_bind {A B A' B'} (Q : A -> B -> Prop) (Q' : A' -> B' -> Prop) p p' (f : A -> P A') (g : B -> P B') :
    prel Q p p' -> (forall a b, Q a b -> prel Q' (f a) (g b)) -> prel Q' (pbind p f) (pbind p' g).
  Proof.
    intros H Hf. revert p' H. induction p as [a|l k IH|l v k IH|]; intros [b|l' k'|l' v' k'|]; simpl; auto; try tauto.
    - intros [E H]. split; [exact E|]. intros v. apply IH, H.
    - intros (E & E' & H). auto.
  Qed.
  Lemma peq_refl {A} (p : P A) : peq p p.
  Proof. induction p; simpl; auto. Qed.
  Lemma prel_pfor_n {S S'} (R : nat -> S -> S' -> Prop) (body : nat -> S -> P S) (body' : nat -> S' -> P S') n : forall i s s',
    (forall j a b, i <= j < i + n -> R j a b -> prel (R (j + 1)) (body j a) (body' j b)) -> R i s s' ->
    prel (R (i + n)) (pfor_n n i body s) (pfor_n n i body' s').
  Proof.
    induction n as [|n IH]; intros i s s' Hb H0; cbn [pfor_n].
    - rewrite Nat.add_0_r. exact H0.
    - eapply prel_bind; [apply Hb; [lia|exact H0]|]. intros a b Hab.
      replace (i + Datatypes.S n) with (i + 1 + n) by lia. apply IH; [|exact Hab]. intros j a' b' Hj. apply Hb. lia.
  Qed.

  Lemma exec_peq {A} (p p' : P A) m : peq p p' -> exec m p = exec m p'.
  Proof.
    revert p' m. induction p as [a|l k IH|l v k IH|]; intros [b|l' k'|l' v' k'|] m; simpl; try tauto.
    - intros ->. reflexivity.
    - intros [-> H]. destruct (get m l'); simpl; auto.
    - intros (-> & -> & H). destruct (set m l' v'); simpl; auto.
  Qed.
  Lemma exec_seq_peq (T T' : nat -> P unit) rs : (forall r, peq (T r) (T' r)) -> forall m, exec_seq T rs m = exec_seq T' rs m.
  Proof.
    intros H. induction rs as [|r rs IH]; intros m; simpl; [reflexivity|].
    rewrite (exec_peq _ _ m (H r)). destruct (exec m (T' r)) as [[[] m']| | |]; simpl; auto.
  Qed.

  (** *** Regions *)
  Definition trel (t t' : @tstate V) : Prop :=
    match t, t' with
    | Idle, Idle => True
    | Busy p rs, Busy p' rs' => peq p p' /\ rs = rs'
    | _, _ => False
    end.
  Definition mrel (s s' : @mach V) : Prop :=
    mq s = mq s' /\ mcur s = mcur s' /\ mold s = mold s' /\ Forall2 trel (mt s) (mt s').
  Definition rrel (r r' : res (@mach V)) : Prop :=
    match r, r' with
    | Ok s, Ok s' => mrel s s'
    | UB, UB => True
    | Throw e, Throw e' => e = e'
    | Fuel, Fuel => True
    | _, _ => False
    end.
  Section Machine.
    Context (T T' : nat -> P unit) (HT : forall r, peq (T r) (T' r)).
    Lemma next_rel rs : trel (next_task T rs) (next_task T' rs).
    Proof. destruct rs as [|r rs]; simpl; auto. Qed.
    Lemma step_rel x s s' : mrel s s' -> rrel (step T x s) (step T' x s').
    Proof.
      destruct x as [t pick]. destruct s as [q ts cur old], s' as [q' ts' cur' old']. intros (E1 & E2 & E3 & Hts).
      simpl in *. subst q' cur' old'.
      destruct (ts !! t) as [st|] eqn:Et.
      - destruct (Forall2_lookup_l _ _ _ _ _ Hts Et) as (st' & Et' & Hst). rewrite Et'. destruct st as [|p rs], st' as [|p' rs']; simpl in Hst; try tauto.
        + destruct q as [|c q]; simpl; [split; auto|]. split; [reflexivity|]. split; [reflexivity|]. split; [reflexivity|].
          simpl. apply Forall2_insert; [exact Hts|apply next_rel].
        + destruct Hst as [Hp <-]. destruct p as [[]|l k|l v k|], p' as [[]|l' k'|l' v' k'|]; simpl in Hp; try tauto.
          * simpl. split; [reflexivity|]. split; [reflexivity|]. split; [reflexivity|]. simpl. apply Forall2_insert; [exact Hts|apply next_rel].
          * destruct Hp as [<- Hk]. destruct (get (default cur ((cur :: old) !! pick)) l); simpl; auto.
            split; [reflexivity|]. split; [reflexivity|]. split; [reflexivity|]. simpl. apply Forall2_insert; [exact Hts|]. simpl. auto.
          * destruct Hp as (<- & <- & Hk). destruct (set cur l v); simpl; auto.
            split; [reflexivity|]. split; [reflexivity|]. split; [reflexivity|]. simpl. apply Forall2_insert; [exact Hts|]. simpl. auto.
      - assert (ts' !! t = None) as ->.
        { apply lookup_ge_None. rewrite <- (Forall2_length _ _ _ Hts). apply lookup_ge_None, Et. }
        simpl. split; auto.
    Qed.
    Lemma run_rel sched : forall s s', mrel s s' -> rrel (run T sched s) (run T' sched s').
    Proof.
      induction sched as [|x sched IH]; intros s s' Hs; simpl; [exact Hs|].
      pose proof (step_rel x s s' Hs) as H. destruct (step T x s), (step T' x s'); simpl in *; auto; tauto.
    Qed.
    Lemma minit_rel nthr q m : mrel (minit nthr q m) (minit nthr q m).
    Proof.
      split; [reflexivity|]. split; [reflexivity|]. split; [reflexivity|]. simpl.
      induction nthr; simpl; constructor; simpl; auto.
    Qed.
    Lemma region_rel nthr q m m' : region T nthr q m m' -> region T' nthr q m m'.
    Proof.
      intros (sched & s & Hr & [Hq Hd] & Hm). pose proof (run_rel sched _ _ (minit_rel nthr q m)) as H. rewrite Hr in H.
      destruct (run T' sched (minit nthr q m)) as [s'| | |] eqn:E; simpl in H; try tauto. destruct H as (H1 & H2 & _ & H4).
      exists sched, s'. split; [exact E|]. split; [|congruence]. split; [congruence|].
      clear -Hd H4. induction H4 as [|t t' l l' Ht _ IH]; [constructor|]. inversion Hd; subst. constructor; auto. destruct t'; simpl in Ht; tauto.
    Qed.
    Lemma safe_rel nthr q m : region_safe T nthr q m -> region_safe T' nthr q m.
    Proof.
      intros H sched. destruct (H sched) as (s & Hs). pose proof (run_rel sched _ _ (minit_rel nthr q m)) as HR. rewrite Hs in HR.
      destruct (run T' sched (minit nthr q m)) as [s'| | |]; simpl in HR; try tauto. eauto.
    Qed.
  End Machine.
  Lemma peq_sym {A} (p p' : P A) : peq p p' -> peq p' p.
  Proof.
    revert p'. induction p as [a|l k IH|l v k IH|]; intros [b|l' k'|l' v' k'|]; simpl; auto; try tauto.
    - intros [E H]. auto.
    - intros (E & E' & H). auto.
  Qed.
End Prel.
Notation peq := (prel eq).

(** ** The same outcomes *)
Definition neq {A} (m m' : nd A) : Prop := forall o, m o <-> m' o.
Lemma neq_refl {A} (m : nd A) : neq m m.
Proof. intros o. reflexivity. Qed.
Lemma neq_bind {A B} (m m' : nd A) (k k' : A -> nd B) : neq m m' -> (forall a, neq (k a) (k' a)) -> neq (nbind m k) (nbind m' k').
Proof.
  intros Hm Hk o. split; intros (x & Hx & Ho); exists x; (split; [apply Hm, Hx|]); destruct x; auto; apply Hk, Ho.
Qed.
Lemma neq_nok {A} (m m' : nd A) Q : neq m m' -> nok m Q <-> nok m' Q.
Proof.
  intros H. split; intros [[o Ho] Hq]; (split; [exists o; apply H, Ho|]); intros o' Ho'; apply Hq, H, Ho'.
Qed.
Lemma neq_region {V} ut (T T' : nat -> @P V unit) nthr q m : (forall r, peq (T r) (T' r)) -> neq (omp_region ut T nthr q m) (omp_region ut T' nthr q m).
Proof.
  intros H. assert (forall r, peq (T' r) (T r)) as H' by (intros r; apply peq_sym, H).
  unfold omp_region. destruct (ut && negb (nthr =? 1)).
  - intros o. split; intros [(m' & Hm & Ho)|[Ho Hn]].
    + left. exists m'. split; [apply (region_rel _ _ H), Hm|exact Ho].
    + right. split; [exact Ho|]. intros Hs. apply Hn, (safe_rel _ _ H'), Hs.
    + left. exists m'. split; [apply (region_rel _ _ H'), Hm|exact Ho].
    + right. split; [exact Ho|]. intros Hs. apply Hn, (safe_rel _ _ H), Hs.
  - rewrite (exec_seq_peq _ _ _ H). apply neq_refl.
Qed.
Lemma neq_omp_for {V} (T T' : nat -> @P V unit) nthr order m : (forall r, peq (T r) (T' r)) -> neq (omp_for T nthr order m) (omp_for T' nthr order m).
Proof.
  intros H. assert (forall r, peq (T' r) (T r)) as H' by (intros r; apply peq_sym, H).
  intros o. split; intros (q & Hq & Ho); exists q; (split; [exact Hq|]).
  - destruct Ho as [(m' & Hm & Ho)|[Ho Hn]]; [left|right].
    + exists m'. split; [apply (region_rel _ _ H), Hm|exact Ho].
    + split; [exact Ho|]. intros Hs. apply Hn, (safe_rel _ _ H'), Hs.
  - destruct Ho as [(m' & Hm & Ho)|[Ho Hn]]; [left|right].
    + exists m'. split; [apply (region_rel _ _ H'), Hm|exact Ho].
    + split; [exact Ho|]. intros Hs. apply Hn, (safe_rel _ _ H), Hs.
Qed.
Lemma neq_nfor {St} lo hi (body body' : nat -> St -> nd St) s : (forall i s, neq (body i s) (body' i s)) -> neq (nfor lo hi body s) (nfor lo hi body' s).
Proof.
  intros H. unfold nfor. generalize (hi - lo) as n. intros n. revert lo s. induction n as [|n IH]; intros lo s; simpl; [apply neq_refl|].
  apply neq_bind; [apply H|]. intros a. apply IH.
Qed.
Lemma neq_nrfor {St} lo hi (body body' : nat -> St -> nd St) s : (forall i s, neq (body i s) (body' i s)) -> neq (nrfor lo hi body s) (nrfor lo hi body' s).
Proof.
  intros H. unfold nrfor. generalize (hi - lo) as n. intros n. revert s. induction n as [|n IH]; intros s; simpl; [apply neq_refl|].
  apply neq_bind; [apply H|]. intros a. apply IH.
Qed.
Lemma forl_ext {St} l (body body' : nat -> St -> res St) s : (forall i s, body i s = body' i s) -> forl l body s = forl l body' s.
Proof.
  intros H. revert s. induction l as [|a l IH]; intros s; simpl; [reflexivity|]. rewrite H. destruct (body' a s); simpl; auto.
Qed.
Lemma neq_par_for {St} lo hi (body body' : nat -> St -> res St) s : (forall i s, body i s = body' i s) -> neq (par_for lo hi body s) (par_for lo hi body' s).
Proof.
  intros H o. split; intros (l & Hl & ->); exists l; (split; [exact Hl|]); [|symmetry]; apply forl_ext, H.
Qed.

(** ** Drivers *)
Section Drivers.
  Context {F : Type} {O : SOps F}.
  Notation kernel := (list F -> nat -> @P F (list F)).
  Definition keq (C C' : kernel) : Prop := forall z i, peq (C z i) (C' z i).
  Lemma T_peq w (C C' : nat -> @P F (list F)) : (forall i, peq (C i) (C' i)) -> forall r, peq (T w C r) (T w C' r).
  Proof. intros H r. unfold T. eapply prel_bind; [apply H|]. intros a b ->. apply peq_refl. Qed.
  Lemma neq_ilu0 w n (L L' U U' : kernel) scale yt k c ut nthr init r z : keq L L' -> keq U U' ->
    neq (ilu0_apply w n L U scale yt k c ut nthr init r z) (ilu0_apply w n L' U' scale yt k c ut nthr init r z).
  Proof.
    intros HL HU. unfold ilu0_apply. repeat (apply neq_bind; [first [apply neq_refl|apply neq_region, T_peq; intros ?; first [apply HL|apply HU]]|intros ?]).
    apply neq_refl.
  Qed.
  Lemma neq_fwd w (C C' : nat -> @P F (list F)) levels nthr m : (forall i, peq (C i) (C' i)) -> neq (level_fwd w C levels nthr m) (level_fwd w C' levels nthr m).
  Proof.
    intros H. apply neq_nfor. intros i s. do 2 (apply neq_bind; [apply neq_refl|intros ?]). apply neq_omp_for, T_peq, H.
  Qed.
  Lemma neq_bwd w (C C' : nat -> @P F (list F)) levels nthr m : (forall i, peq (C i) (C' i)) -> neq (level_bwd w C levels nthr m) (level_bwd w C' levels nthr m).
  Proof.
    intros H. apply neq_nrfor. intros i s. do 2 (apply neq_bind; [apply neq_refl|intros ?]). apply neq_omp_for, T_peq, H.
  Qed.
  Lemma neq_level_ilu0 w n (L L' U U' : kernel) levels scale yt nthr r z : keq L L' -> keq U U' ->
    neq (level_ilu0_apply w n L U levels scale yt nthr r z) (level_ilu0_apply w n L' U' levels scale yt nthr r z).
  Proof.
    intros HL HU. unfold level_ilu0_apply. apply neq_bind; [apply neq_refl|intros ?]. apply neq_bind; [apply neq_fwd, HL|intros ?].
    apply neq_bind; [apply neq_bwd, HU|intros ?]. apply neq_refl.
  Qed.
  Lemma neq_sgs_apply w n (L L' U U' : kernel) yt k c nthr init r z : keq L L' -> keq U U' ->
    neq (sgs_apply w n L U yt k c nthr init r z) (sgs_apply w n L' U' yt k c nthr init r z).
  Proof.
    intros HL HU. unfold sgs_apply. apply neq_bind; [apply neq_refl|intros y].
    rewrite (exec_seq_peq _ _ _ (T_peq w _ _ (HL r))). apply neq_bind; [apply neq_refl|intros y'].
    apply neq_bind; [apply neq_refl|intros z']. apply neq_bind; [apply neq_region, T_peq, HU|intros ?]. apply neq_refl.
  Qed.
  Lemma neq_level_sgs w (L L' U U' : kernel) levels yt nthr r z : keq L L' -> keq U U' ->
    neq (level_sgs_apply w L U levels yt nthr r z) (level_sgs_apply w L' U' levels yt nthr r z).
  Proof.
    intros HL HU. apply neq_bind; [apply neq_fwd, HL|intros ?]. apply neq_bind; [apply neq_bwd, HU|intros ?]. apply neq_refl.
  Qed.
  Lemma neq_sgs_relax w n (C C' : kernel) its c nthr b x : keq C C' -> neq (sgs_relax w n C its c nthr b x) (sgs_relax w n C' its c nthr b x).
  Proof. intros H. apply neq_region, T_peq, H. Qed.
  Lemma neq_chaotic w n (C C' : kernel) steps c nthr b x : keq C C' -> neq (chaotic_relax w n C steps c nthr b x) (chaotic_relax w n C' steps c nthr b x).
  Proof. intros H. apply neq_region, T_peq, H. Qed.
  Lemma neq_level_relax w (C C' : kernel) levels its nthr b x : keq C C' -> neq (level_relax w C levels its nthr b x) (level_relax w C' levels its nthr b x).
  Proof. intros H. apply neq_nfor. intros i s. apply neq_bind; [apply neq_fwd, H|intros ?]. apply neq_bwd, H. Qed.
  Lemma neq_jacobi ssqrt slt w n (C C' : kernel) p xt b x : keq C C' -> neq (jacobi_relax ssqrt slt w n C p xt b x) (jacobi_relax ssqrt slt w n C' p xt b x).
  Proof.
    intros H. unfold jacobi_relax. generalize (maxits p) 0 (@s1 F O). intros k. revert xt x. induction k as [|k IH]; intros xt x step ref; cbn [jacobi_loop]; [apply neq_refl|].
    apply neq_bind.
    - apply neq_par_for. intros i s. unfold jacobi_row. rewrite (exec_peq _ _ x (H b i)). reflexivity.
    - intros xt'. destruct (ctol p).
      + apply neq_bind; [apply neq_refl|]. intros [dn x']. destruct (jacobi_stop _ _ _ _); [apply neq_refl|apply IH].
      + apply neq_bind; [apply neq_refl|]. intros x'. apply IH.
  Qed.
End Drivers.

(** ** Sums in exact arithmetic *)
Section Exact.
  Context {F : Type} {O : SOps F} {R : CRing F}.
  Add Ring Fr : cring.
  Variables sfma sfnma : F -> F -> F -> F.
  Hypothesis Hfma : forall a b c, sfma a b c = (a * b + c)%s.
  Hypothesis Hfnma : forall a b c, sfnma a b c = (c - a * b)%s.
  Lemma oeval_exact v x init o :
    oeval sfma v x init o = lsum (fun u => match u with None => init | Some j => (v j * x j)%s end) (uses o).
  Proof.
    induction o as [|j|a IHa b IHb|j a IH]; simpl.
    - ring.
    - ring.
    - rewrite lsum_app, IHa, IHb. reflexivity.
    - rewrite Hfma, IH. reflexivity.
  Qed.
  Lemma oeval_covers v x init o lo hi : covers o lo hi ->
    oeval sfma v x init o = (init + lsum (fun j => v j * x j) (range lo hi))%s.
  Proof.
    intros Ho. rewrite oeval_exact, (lsum_perm _ _ _ Ho). simpl. f_equal.
    unfold lsum. induction (range lo hi) as [|j l IH]; simpl; [reflexivity|]. f_equal. exact IH.
  Qed.
  Lemma prel_ret {A B} (Q : A -> B -> Prop) (g : A -> B) (p : @P F A) (p' : @P F B) :
    prel Q p p' -> (forall a b, Q a b -> g a = b) -> peq (pbind p (fun a => Ret (g a))) p'.
  Proof.
    intros H Hg. revert p' H. induction p as [a|l k IH|l v k IH|]; intros [b|l' k'|l' v' k'|]; simpl; auto; try tauto.
    - intros [E H]. auto.
    - intros (E & E' & H). auto.
  Qed.
  Lemma rdot_sdot ord vs colind lo hi init : valid_order ord ->
    peq (rdot sfma ord vs colind lo hi init) (sdot vs colind lo hi init).
  Proof.
    intros Hord. unfold rdot, sdot, pfor.
    set (RR := fun (j : nat) (vx : nat -> F * F) (a : F) => a = (init + lsum (fun k => (vx k).1 * (vx k).2) (range lo j))%s).
    apply (prel_ret (RR (lo + (hi - lo)))).
    - apply prel_pfor_n.
      + intros j vx a Hj ->. destruct (get vs j) as [v| | |]; simpl; auto. destruct (get colind j) as [c| | |]; simpl; auto.
        split; [reflexivity|]. intros x. unfold RR. replace (range lo (j + 1)) with (range lo j ++ [j]).
        2: { unfold range. replace (j + 1 - lo) with (j - lo + 1) by lia. rewrite seq_app. f_equal. simpl. f_equal. lia. }
        rewrite lsum_app. simpl. rewrite decide_True by done. simpl.
        rewrite (lsum_ext (fun k => (if decide (k = j) then (v, x) else vx k).1 * (if decide (k = j) then (v, x) else vx k).2) (fun k => (vx k).1 * (vx k).2))%s.
        * ring.
        * intros k Hk. apply elem_of_range in Hk. rewrite decide_False by lia. reflexivity.
      + unfold RR. rewrite range_same. simpl. ring.
    - intros vx a ->. rewrite (oeval_covers _ _ _ _ lo hi (Hord lo hi)). f_equal. destruct (decide (lo <= hi)).
      + replace (lo + (hi - lo)) with hi by lia. reflexivity.
      + replace (lo + (hi - lo)) with lo by lia. rewrite range_same. unfold range. replace (hi - lo) with 0 by lia. reflexivity.
  Qed.
  Lemma msub_exact fused rhs a b : msub sfnma fused rhs a b = msub_plain rhs a b.
  Proof. destruct fused; simpl; [apply Hfnma|reflexivity]. Qed.

  Ltac same := repeat (eapply prel_bind; [apply peq_refl|intros ? ? ->]).
  Context (ord : nat -> nat -> order) (Hord : valid_order ord).
  Lemma low_exact M ilu : keq (low_with (rdot sfma ord) M ilu) (scalar_lowC M ilu).
  Proof.
    intros z i. unfold low_with, scalar_lowC, scalar_unit_lower_triangular. same.
    eapply prel_bind; [|intros ? ? ->; apply peq_refl]. eapply prel_bind; [apply rdot_sdot, Hord|]. intros ? ? ->. apply peq_refl.
  Qed.
  Lemma up_exact M ilu : keq (up_with (rdot sfma ord) M ilu) (scalar_upC M ilu).
  Proof.
    intros z i. unfold up_with, scalar_upC, scalar_upper_triangular. same.
    eapply prel_bind; [|intros ? ? ->; apply peq_refl]. eapply prel_bind; [apply rdot_sdot, Hord|]. intros ? ? ->. apply peq_refl.
  Qed.
  Lemma fgs_exact M d : keq (fgs_with (rdot sfma ord) M d) (scalar_fgsC M d).
  Proof.
    intros z i. unfold fgs_with, scalar_fgsC, scalar_fgs. same.
    eapply prel_bind; [|intros ? ? ->; apply peq_refl]. eapply prel_bind; [apply rdot_sdot, Hord|]. intros ? ? ->. apply peq_refl.
  Qed.
  Lemma bgs_exact fused M d : keq (bgs_with (rdot sfma ord) (msub sfnma fused) M d) (scalar_bgsC M d).
  Proof.
    intros z i. unfold bgs_with, scalar_bgsC, scalar_bgs. same.
    eapply prel_bind; [|intros ? ? ->; apply peq_refl]. eapply prel_bind; [apply rdot_sdot, Hord|]. intros ? ? ->. simpl. apply msub_exact.
  Qed.
  Lemma relax_exact M d : keq (relax_with (rdot sfma ord) M d) (scalar_relaxC M d).
  Proof.
    intros z i. unfold relax_with, scalar_relaxC, scalar_relax. same.
    eapply prel_bind; [|intros ? ? ->; apply peq_refl]. eapply prel_bind; [apply rdot_sdot, Hord|]. intros ? ? ->.
    eapply prel_bind; [apply rdot_sdot, Hord|]. intros ? ? ->. apply peq_refl.
  Qed.
End Exact.
