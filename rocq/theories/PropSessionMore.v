(** * PropSessionMore: preconditioners used through PETSc: every ILU(0) name, scalar and blocked, and the remaining names (C71) *)
From Coq Require Import ZArith.
From Verif Require Import Base Alg Coo CooFacts ColMat PropColMat SRMatrix Async AsyncTheory AsyncSystem AsyncSweeps Nd Kernels KernelFacts IluApply IluApplyFacts IluApplyProofs TriSpec TriFacts
  IluApplyMain IluPattern IluFactor IluFactorMain Sgs SgsFacts SgsProofs SgsForms SgsMain Memory Levels PropLevels PropIluInit
  PropIluFactor PropIluApply PropIluSolve Factory PropFactory Petsc PropPetscSetup Objects ObjFacts ObjHistory ObjAlg ObjTotal GsSweep PropObjects PropSession.
Open Scope nat_scope.

(** ** Specification *)
(** What the user asked for with "-blasted_async_sweeps nb,na", "-blasted_thread_chunk_size k", "-blasted_async_apply_init_type ai" and
    "-blasted_use_symmetric_scaling sc" (which only some names have) *)
Definition asked (o : options) (t : ptype) (nb na : Z) (ai : string) (sc : bool) : Prop :=
  (exists l k, o_sweeps o = Some (nb :: na :: l) /\ o_chunk o = Some k) /\ o_ainit o = Some ai /\
  (starts_factor t -> o_scaling o = Some sc) /\ (~ starts_factor t -> sc = false).
(** ILU(0) is what results: from the names of ILU(0), a count of -1 standing for "in order"; and from any name with two counts of -1 *)
Definition acts_as_ilu (t : ptype) (nb na : Z) : Prop :=
  (t = SEQILU0 /\ (1 <= nb)%Z /\ (1 <= na)%Z) \/
  ((t = ILU0 \/ t = SFILU0 \/ t = SAPILU0) /\ (nb = -1 \/ 1 <= nb)%Z /\ (na = -1 \/ 1 <= na)%Z) \/
  (t = ASYNC_LEVEL_ILU0 /\ (1 <= nb)%Z /\ na <> (-1)%Z) \/
  (~ direct t /\ t <> SEQILU0 /\ nb = (-1)%Z /\ na = (-1)%Z).
(** the factorisation, the application are carried out in order, whatever the number of threads *)
Definition factors_in_order (t : ptype) (nb : Z) : Prop := sequential_factor t = true \/ nb = (-1)%Z.
Definition applies_in_order (t : ptype) (na : Z) : Prop := sequential_apply t = true \/ t = ASYNC_LEVEL_ILU0 \/ na = (-1)%Z.

(** What the factory makes then *)
Lemma ilu_made {F} bs o p s t nb na ai sc : made_from (F:=F) bs o p -> o_type o = Some s -> (s, t) ∈ advertised ->
  asked o t nb na ai sc -> acts_as_ilu t nb na -> ai <> "init_none"%string ->
  exists i, (p = PIlu (shape_for bs) i \/ (t = ASYNC_LEVEL_ILU0 /\ p = PLevelIlu (shape_for bs) i)) /\ i_scale i = sc /\ (1 <= i_nbuild i)%Z /\
    (factors_in_order t nb -> i_tfactor i = false) /\
    (p = PLevelIlu (shape_for bs) i \/ ((1 <= i_napply i)%Z /\ i_ainit i <> INIT_A_NONE /\ (applies_in_order t na -> i_tapply i = false))) /\
    (i_finit i = INIT_F_SGS -> o_finit o = Some "init_sgs"%string).
Proof.
  intros Hm Ho Hst Hask Hact Hai.
  pose proof (made_shape bs o p Hm) as (Hnr & _ & Hsh).
  destruct Hask as ((l & k & Os & Oc) & Oa & Osc & Osn).
  assert (~ direct t) as Hnd.
  { unfold acts_as_ilu, direct in *. destruct Hact as [(-> & _)|[([-> |[-> | ->]] & _)|[(-> & _)|(H & _)]]]; try exact H; intros [|[|]]; discriminate. }
  destruct Hm as (s' & t' & st & gf & ga & c & Hs1 & Ht & _ & Hpt & _ & Hopt & Hset & Hp).
  assert (s' = s) as -> by congruence. rewrite (trunc_name _ _ Hst) in *. rewrite <- Hpt in Ht.
  pose proof (proj2 (C45_names _ _) Ht) as Et. rewrite Hpt in Et. rewrite (proj2 (C45_names _ _) Hst) in Et. injection Et as <-.
  destruct (settings_inv _ _ _ _ _ Ht Hset) as (t1 & nb1 & na1 & Hsw & E1 & E2 & E3 & _ & _ & _ & Esc & _ & Hfi & Hin & Hfn).
  destruct (Hopt Hnd) as (nb' & na' & l' & ai' & k' & Os' & Oa' & _ & N1 & N2 & N3 & _ & N5 & N6).
  rewrite Os in Os'. injection Os' as <- <- <-. rewrite Oa in Oa'. injection Oa' as <-. rewrite N1, N2 in Hsw.
  assert (c_scale c = sc) as Ecs.
  { destruct (decide (t = ILU0 \/ t = SAPILU0 \/ t = ASYNC_LEVEL_ILU0)) as [Hd|Hd].
    - destruct (N5 Hd) as [H _]. rewrite (Osc Hd) in H. congruence.
    - rewrite (N6 Hd), (Osn Hd). reflexivity. }
  destruct (C46_created _ _ Hp) as (Hmean & _ & _ & Hth & Hb & Ha & _ & Hsf & Hsa & Hscl).
  rewrite E1, ?E2, ?E3 in *.
  (* the type that results *)
  assert ((t1 = ASYNC_LEVEL_ILU0 /\ t = ASYNC_LEVEL_ILU0 /\ nb1 = nb /\ (1 <= nb)%Z) \/
    ((t1 = ILU0 \/ t1 = SEQILU0 \/ t1 = SFILU0 \/ t1 = SAPILU0) /\ (1 <= nb1)%Z /\ (1 <= na1)%Z /\ t <> ASYNC_LEVEL_ILU0 \/ t1 = SEQILU0 /\ nb1 = 1%Z /\ na1 = 1%Z)) as Hcls.
  { clear -Hsw Hact. unfold acts_as_ilu in Hact. destruct Hact as [(-> & Hb & Ha)|[(Ht & Hb & Ha)|[(-> & Hb & Ha)|(_ & Ht & -> & ->)]]].
    - rewrite C47_sequential_refuted in Hsw. injection Hsw as <- <- <-. right. left. split; [tauto|]. split; [lia|]. split; [lia|discriminate].
    - destruct (C47_ilu t nb na) as (t2 & nb2 & na2 & E & Hi & _ & _ & G1 & G2 & G3 & G4 & G5).
      { unfold ilu_type. tauto. } { destruct Ht as [-> |[-> | ->]]; discriminate. }
      rewrite E in Hsw. injection Hsw as <- <- <-. right. left. split; [unfold ilu_type in Hi; tauto|].
      split; [|split; [|destruct Ht as [-> |[-> | ->]]; discriminate]].
      + destruct (decide (t2 = SEQILU0)) as [Hq|Hq]; [destruct (G5 Hq); lia|]. destruct (decide (nb = (-1)%Z)) as [Hz|Hz]; [rewrite (G1 Hz); lia|rewrite (G3 Hz Hq); lia].
      + destruct (decide (t2 = SEQILU0)) as [Hq|Hq]; [destruct (G5 Hq); lia|]. destruct (decide (na = (-1)%Z)) as [Hz|Hz]; [rewrite (G2 Hz); lia|rewrite (G4 Hz Hq); lia].
    - rewrite C47_plain in Hsw by lia. injection Hsw as <- <- <-. left. auto.
    - rewrite C47_both_refuted in Hsw by exact Ht. injection Hsw as <- <- <-. right. right. auto. }
  assert (factors_in_order t nb -> t1 <> ASYNC_LEVEL_ILU0 -> sequential_factor t1 = true) as Hfo.
  { intros Hf Hl. clear -Hsw Hact Hf Hl. unfold factors_in_order, acts_as_ilu in *. destruct Hact as [(-> & Hb & Ha)|[(Ht & Hb & Ha)|[(-> & Hb & Ha)|(_ & Ht & -> & ->)]]].
    - rewrite C47_sequential_refuted in Hsw. injection Hsw as <- <- <-. reflexivity.
    - destruct (C47_ilu t nb na) as (t2 & nb2 & na2 & E & _ & G & _).
      { unfold ilu_type. tauto. } { destruct Ht as [-> |[-> | ->]]; discriminate. }
      rewrite E in Hsw. injection Hsw as <- <- <-. apply G. exact Hf.
    - rewrite C47_plain in Hsw by lia. injection Hsw as <- <- <-. congruence.
    - rewrite C47_both_refuted in Hsw by exact Ht. injection Hsw as <- <- <-. reflexivity. }
  assert (applies_in_order t na -> t1 <> ASYNC_LEVEL_ILU0 -> sequential_apply t1 = true) as Hao.
  { intros Hf Hl. clear -Hsw Hact Hf Hl. unfold applies_in_order, acts_as_ilu in *. destruct Hact as [(-> & Hb & Ha)|[(Ht & Hb & Ha)|[(-> & Hb & Ha)|(_ & Ht & -> & ->)]]].
    - rewrite C47_sequential_refuted in Hsw. injection Hsw as <- <- <-. reflexivity.
    - destruct (C47_ilu t nb na) as (t2 & nb2 & na2 & E & _ & _ & G & _).
      { unfold ilu_type. tauto. } { destruct Ht as [-> |[-> | ->]]; discriminate. }
      rewrite E in Hsw. injection Hsw as <- <- <-. apply G. destruct Hf as [Hf|[Hf|Hf]]; [auto| |auto]. exfalso. destruct Ht as [-> |[-> | ->]]; discriminate.
    - rewrite C47_plain in Hsw by lia. injection Hsw as <- <- <-. congruence.
    - rewrite C47_both_refuted in Hsw by exact Ht. injection Hsw as <- <- <-. reflexivity. }
  assert (forall i, start_of_factor p = Some (i_finit i) -> i_finit i = INIT_F_SGS -> o_finit o = Some "init_sgs"%string) as Hfin.
  { intros i Hi Ei. rewrite (Hsf _ Hi) in Ei.
    destruct (decide (t1 = ILU0 \/ t1 = SAPILU0 \/ t1 = ASYNC_LEVEL_ILU0)) as [Hd|Hd].
    - specialize (Hfi Hd). apply C45_initial_guesses in Hfi. rewrite Ei in Hfi.
      assert (starts_factor t) as Hsft.
      { clear -Hsw Hd Hact. unfold starts_factor, acts_as_ilu in *. destruct Hact as [(-> & Hb & Ha)|[(Ht & Hb & Ha)|[(-> & Hb & Ha)|(_ & Ht & -> & ->)]]].
        - rewrite C47_sequential_refuted in Hsw. injection Hsw as <- <- <-. destruct Hd as [|[|]]; discriminate.
        - destruct Ht as [-> |[-> | ->]]; [auto| |auto]. exfalso.
          destruct (C47_ilu SFILU0 nb na) as (t2 & nb2 & na2 & E & Hi & G & _); [unfold ilu_type; tauto|discriminate|].
          rewrite E in Hsw. injection Hsw as <- <- <-. assert (sequential_factor t2 = true) as Hs by (apply G; left; reflexivity).
          destruct Hd as [-> |[-> | ->]]; discriminate Hs.
        - auto.
        - rewrite C47_both_refuted in Hsw by exact Ht. injection Hsw as <- <- <-. destruct Hd as [|[|]]; discriminate. }
      destruct (N5 Hsft) as [_ (fi & Of & Ef)]. rewrite Ef in Hfi. rewrite Of. f_equal.
      unfold advertised_finit in Hfi. rewrite !elem_of_cons, elem_of_nil in Hfi. destruct Hfi as [[=]|[[=]|[[= Et']|[[=]|[]]]]].
      apply (substring_short 19); [exact Et'|cbn; lia].
    - assert (~ direct t1) as Hd1.
      { destruct Hcls as [(-> & _)|[([-> |[-> |[-> | ->]]] & _)|(-> & _)]]; intros [|[|]]; discriminate. }
      rewrite (Hfn Hd1 Hd) in Ei. discriminate. }
  assert (forall i, start_of_apply p = Some (i_ainit i) -> i_ainit i <> INIT_A_NONE) as Hain.
  { intros i Hi Ei. rewrite (Hsa _ Hi) in Ei.
    assert (~ direct t1) as Hd1.
    { destruct Hcls as [(-> & _)|[([-> |[-> |[-> | ->]]] & _)|(-> & _)]]; intros [|[|]]; discriminate. }
    specialize (Hin Hd1). apply C45_initial_guesses in Hin. rewrite Ei, N3 in Hin. unfold advertised_ainit in Hin. rewrite !elem_of_cons, elem_of_nil in Hin.
    destruct Hin as [[=]|[[=]|[[= Et']|[]]]]. apply Hai. apply (substring_short 19); [exact Et'|cbn; lia]. }
  destruct Hcls as [(-> & -> & -> & Hnb)|Hcls].
  - cbn in Hmean. destruct p as [sh|sh na2 ch|na2 ch|sh na2 ai1 ch|sh|sh i|sh i|i|b]; try discriminate Hmean.
    destruct Hsh as [Hsh|]; [|discriminate]. cbn [pshape] in Hsh. subst sh. exists i. split; [auto|].
    split; [rewrite (Hscl _ eq_refl), Esc; exact Ecs|]. split; [rewrite (Hb _ eq_refl); exact Hnb|].
    split; [|split; [auto|apply Hfin; reflexivity]].
    intros [Hf|Hf]; [discriminate Hf|lia].
  - assert ((t1 = ILU0 \/ t1 = SEQILU0 \/ t1 = SFILU0 \/ t1 = SAPILU0) /\ (1 <= nb1)%Z /\ (1 <= na1)%Z) as (Ht1 & Hnb & Hna).
    { destruct Hcls as [(H1 & H2 & H3 & _)|(-> & -> & ->)]; [auto|]. split; [auto|]. lia. }
    assert (t1 <> ASYNC_LEVEL_ILU0) as Hnl by (destruct Ht1 as [-> |[-> |[-> | ->]]]; discriminate).
    assert (method_of p = Ilu0) as Hk by (destruct Ht1 as [-> |[-> |[-> | ->]]]; exact Hmean).
    destruct p as [sh|sh na2 ch|na2 ch|sh na2 ai1 ch|sh|sh i|sh i|i|b]; try discriminate Hk; [|exfalso; exact (Hnr i eq_refl)].
    destruct Hsh as [Hsh|]; [|discriminate]. cbn [pshape] in Hsh. subst sh. exists i. split; [auto|].
    specialize (Hth _ eq_refl). injection Hth as Etf Eta.
    split; [rewrite (Hscl _ eq_refl), Esc; exact Ecs|]. split; [rewrite (Hb _ eq_refl); exact Hnb|].
    split; [intros Hf; rewrite Etf, (Hfo Hf Hnl); reflexivity|]. split; [|apply Hfin; reflexivity].
    right. split; [rewrite (Ha _ eq_refl); exact Hna|]. split; [apply Hain; reflexivity|].
    intros Hf. rewrite Eta, (Hao Hf Hnl). reflexivity.
Qed.

(** ** C71: the names of ILU(0), scalar matrices *)
(** If the (scaled) matrix has an ILU(0) factorisation with nonzero pivots, then applying solves with it and the scaling, provided that
    the factorisation and the application are each carried out in order, by name, by a count of -1, or because there is one thread;
    "async_level_ilu0" applies by levels with any number of threads. The solution does not depend on the session. *)
Theorem C71_ilu :
  forall (F : Type) (O : SOps F) (R : Field F) (ssqrt sabs : F -> F) slt inv maxthr (M0 M : srmat F) s t nb na ai sc lu r,
  let n := nbrows M in
  let scale := scale_used ssqrt sc n (dense M) in
  let L := unitlower (entry M lu) in
  let U := upper (entry M lu) in
  wf_mat M0 -> wf_end M0 -> holds 1 M0 M ->
  (s, t) ∈ advertised -> acts_as_ilu t nb na -> ai <> "init_none"%string -> t <> ASYNC_LEVEL_ILU0 \/ sym_pattern M0 ->
  factors_in_order t nb \/ maxthr = 1 ->
  length lu = nnz M -> (forall k, k < n -> entry M lu k k <> s0) -> exact_on_pattern M L U (scaled_mat scale (dense M)) -> length r = n ->
  exists x, length x = n /\ is_prod n (mprod n L U) x (scaled_rhs scale r) /\
    (forall x', length x' = n -> is_prod n (mprod n L U) x' (scaled_rhs scale r) -> x' = x) /\
    forall o m c st dbg nthr g dcpu dwall z,
      session ssqrt sabs slt inv maxthr 1 M0 o m c st M -> o_type o = Some s -> asked o t nb na ai sc ->
      sc = false \/ o_finit o <> Some "init_sgs"%string ->
      length z = n -> 1 <= nthr -> applies_in_order t na \/ nthr = 1 ->
      nok (apply_local_blasted dbg nthr g dcpu dwall M c st r z) (applied (fun z' => z' = scaled_sol scale x)).
Proof.
  intros F O R ssqrt sabs slt inv maxthr M0 M s t nb na ai sc lu r n scale L U HM0 He HMM Hst Hact Hai Hsym Hfo Hll Hpiv Hex Hr.
  destruct HMM as [Hp Hv]. rewrite !Nat.mul_1_r in Hv. pose proof (same_pattern_wf _ _ Hp HM0) as HM.
  assert (scale_ok scale n) as Hsok.
  { unfold scale, scale_used. destruct sc; simpl; [|exact Logic.I]. unfold diagonal_scale. rewrite fmap_length, seq_length. reflexivity. }
  destruct (C34_scalar_sequential_apply F O R M lu scale r HM Hll Hpiv Hsok Hr) as (x & H1 & H2 & H3 & _).
  exists x. split; [exact H1|]. split; [exact H2|]. split; [exact H3|].
  intros o m c st dbg nthr g dcpu dwall z Hs Ho Hask Hsgs Hz Hn Hao.
  destruct (C71_session _ _ _ _ _ _ _ _ _ _ _ _ _ _ Hs) as (p & Ep & _ & Hm & HMM & Hl).
  destruct (made_fits 1 o p M0 M Hm HMM) as [_ Hd].
  destruct (ilu_made 1 o p s t nb na ai sc Hm Ho Hst Hask Hact Hai) as (i & Hcls & Esc & Hnb & Htf & Happ & Hfin).
  change (shape_for 1) with Scalar in *.
  assert (sym_pattern M0 \/ needs_symmetry p = false) as Hsym'.
  { destruct Hcls as [-> |[Et ->]]; [right; reflexivity|]. destruct Hsym as [|Hsym]; [contradiction|left; exact Hsym]. }
  assert (well_equipped inv p M0) as Heq by (apply (equipped inv 1 o p M0 Hm HM0 He Hsym'); left; reflexivity).
  assert (p = PIlu Scalar i \/ p = PLevelIlu Scalar i) as Hc2 by tauto.
  destruct (C68_ilu F O R ssqrt sabs inv p i M0 M maxthr Hc2 Heq Hp Hv) as (lu' & K1 & K2 & K3 & K4).
  - exact Hnb.
  - destruct Hfo as [Hfo|]; [left; apply Htf, Hfo|auto].
  - destruct Hsgs as [Hsgs|Hsgs]; [right; congruence|left; intros E; apply Hsgs, Hfin, E].
  - rewrite Esc in K2, K3, K4. fold n scale in K2, K3, K4.
    assert (lu = lu') as -> by (apply K3; auto).
    destruct (K4 Hpiv r Hr) as (x1 & G1 & G2 & _ & G4).
    rewrite <- (H3 x1 G1 G2). apply (apply_local_ok _ _ _ _ _ _ _ _ _ _ p); [exact Ep|rewrite Hd; lia|].
    apply G4; auto. destruct Happ as [Happ|(A1 & A2 & A3)]; [auto|]. right. split; [exact A1|]. split; [exact A2|].
    destruct Hao as [Hao|]; [left; apply A3, Hao|auto].
Qed.
(** ... and with blocks, stored by columns as in PETSc: [x] holds the blocks of the factors *)
Theorem C71_block_ilu :
  forall (F : Type) (O : SOps F) (R : Field F) (ssqrt sabs : F -> F) slt inv maxthr bs (M0 M : srmat F) s t nb na ai sc x r,
  let n := nbrows M in
  let A := bdense ColMajor bs M in
  let scale := scale_used ssqrt sc (n * bs) A in
  let B := bentry ColMajor bs M x in
  let LU := mprod (n * bs) (bunitlower bs B) (bupper bs B B) in
  2 <= bs -> wf_mat M0 -> wf_end M0 -> holds bs M0 M -> inverse_oracle ColMajor bs inv ->
  (s, t) ∈ advertised -> acts_as_ilu t nb na -> ai <> "init_none"%string -> t <> ASYNC_LEVEL_ILU0 \/ sym_pattern M0 ->
  factors_in_order t nb \/ maxthr = 1 ->
  length x = nnz M * (bs * bs) -> (forall k, k < n -> exists Y, is_inverse bs (dblock bs B k) Y) ->
  bexact_on_pattern bs M (bunitlower bs B) (bupper bs B B) (scaled_mat scale A) -> length r = n * bs ->
  (exists u0, length u0 = n * bs /\ is_prod (n * bs) LU u0 (scaled_rhs scale r) /\
     forall u', length u' = n * bs -> is_prod (n * bs) LU u' (scaled_rhs scale r) -> u' = u0) /\
  forall u, length u = n * bs -> is_prod (n * bs) LU u (scaled_rhs scale r) ->
    forall o m c st dbg nthr g dcpu dwall z,
      session ssqrt sabs slt inv maxthr bs M0 o m c st M -> o_type o = Some s -> asked o t nb na ai sc ->
      length z = n * bs -> 1 <= nthr -> applies_in_order t na \/ nthr = 1 ->
      nok (apply_local_blasted dbg nthr g dcpu dwall M c st r z) (applied (fun z' => z' = scaled_sol scale u)).
Proof.
  intros F O R ssqrt sabs slt inv maxthr bs M0 M s t nb na ai sc x r n A scale B LU Hbs HM0 He HMM Hinv Hst Hact Hai Hsym Hfo Hxl Hpiv Hex Hr.
  assert (shape_for bs = Blocks bs ColMajor) as Hshape by (unfold shape_for; rewrite decide_False by lia; reflexivity).
  destruct HMM as [Hp Hv].
  (* any ILU object gives the solution *)
  assert (forall p i, p = PIlu (Blocks bs ColMajor) i \/ p = PLevelIlu (Blocks bs ColMajor) i -> well_equipped inv p M0 ->
    i_scale i = sc -> (1 <= i_nbuild i)%Z -> i_tfactor i = false \/ maxthr = 1 ->
    exists u, length u = n * bs /\ is_prod (n * bs) LU u (scaled_rhs scale r) /\
      (forall u', length u' = n * bs -> is_prod (n * bs) LU u' (scaled_rhs scale r) -> u' = u) /\
      forall st nthr g z, lived ssqrt sabs inv p maxthr M0 M st -> length z = n * bs -> 1 <= nthr ->
        p = PLevelIlu (Blocks bs ColMajor) i \/ ((1 <= i_napply i)%Z /\ i_ainit i <> INIT_A_NONE /\ (i_tapply i = false \/ nthr = 1)) ->
        nok (obj_apply nthr g p M st r z) (fun '(_, z') => z' = scaled_sol scale u)) as Hany.
  { intros p i Hc2 Heq Esc Hnb Htf.
    destruct (C68_block_ilu F O R ssqrt sabs inv p bs ColMajor i M0 M maxthr Hc2 Heq Hp Hv Hnb Htf) as (x' & K1 & K2 & K3 & K4).
    rewrite Esc in K2, K3, K4. fold n A scale in K2, K3, K4.
    assert (x = x') as <- by (apply K3; auto).
    exact (K4 Hpiv r Hr). }
  split.
  - destruct (Hany (PIlu (Blocks bs ColMajor) (Ilu 1 1 sc 1 INIT_F_NONE INIT_A_ZERO false false false)) _ (or_introl eq_refl)) as (u & H1 & H2 & H3 & _).
    + split; [exact HM0|]. split; [discriminate|]. split; [|exact He]. split; [lia|exact Hinv].
    + reflexivity.
    + cbn. lia.
    + left. reflexivity.
    + exists u. auto.
  - intros u Hu Hpr o m c st dbg nthr g dcpu dwall z Hs Ho Hask Hz Hn Hao.
    destruct (C71_session _ _ _ _ _ _ _ _ _ _ _ _ _ _ Hs) as (p & Ep & _ & Hm & HMM & Hl).
    destruct (made_fits bs o p M0 M Hm HMM) as [_ Hd].
    destruct (ilu_made bs o p s t nb na ai sc Hm Ho Hst Hask Hact Hai) as (i & Hcls & Esc & Hnb & Htf & Happ & Hfin).
    rewrite Hshape in *.
    assert (sym_pattern M0 \/ needs_symmetry p = false) as Hsym'.
    { destruct Hcls as [-> |[Et ->]]; [right; reflexivity|]. destruct Hsym as [|Hsym]; [contradiction|left; exact Hsym]. }
    assert (well_equipped inv p M0) as Heq by (apply (equipped inv bs o p M0 Hm HM0 He Hsym'); right; exact Hinv).
    destruct (Hany p i ltac:(tauto) Heq Esc Hnb) as (u1 & H1 & H2 & H3 & H4).
    { destruct Hfo as [Hfo|]; [left; apply Htf, Hfo|auto]. }
    rewrite (H3 u Hu Hpr). apply (apply_local_ok _ _ _ _ _ _ _ _ _ _ p); [exact Ep|rewrite Hd; lia|].
    apply H4; auto. destruct Happ as [Happ|(A1 & A2 & A3)]; [auto|]. right. split; [exact A1|]. split; [exact A2|].
    destruct Hao as [Hao|]; [left; apply A3, Hao|auto].
Qed.

(** ** C71: the other names *)
(** With "none": the result is the argument *)
Theorem C71_none :
  forall (F : Type) (O : SOps F) (ssqrt sabs : F -> F) slt inv maxthr bs (M0 M : srmat F) o m c st dbg nthr g dcpu dwall r z,
  session ssqrt sabs slt inv maxthr bs M0 o m c st M -> o_type o = Some "none"%string ->
  length r = nbrows M * bs -> length z = nbrows M * bs ->
  nok (apply_local_blasted dbg nthr g dcpu dwall M c st r z) (applied (fun z' => z' = r)).
Proof.
  intros F O ssqrt sabs slt inv maxthr bs M0 M o m c st dbg nthr g dcpu dwall r z Hs Ho Hr Hz.
  destruct (C71_session _ _ _ _ _ _ _ _ _ _ _ _ _ _ Hs) as (p & Ep & _ & Hm & HMM & Hl).
  destruct (made_fits bs o p M0 M Hm HMM) as [_ Hd]. pose proof (made_shape bs o p Hm) as (_ & Hb & _).
  assert (("none"%string, NO_PREC) ∈ advertised) as Hadv by (apply C45_names; reflexivity).
  destruct (kind_of bs o p _ _ Hm Ho Hadv) as [Hk _]. specialize (Hk ltac:(unfold direct; tauto)). cbn in Hk.
  destruct p as [sh|sh na ch|na ch|sh na ai ch|sh|sh i|sh i|i|b]; try discriminate Hk. cbn in Hb. subst b.
  apply (apply_local_ok _ _ _ _ _ _ _ _ _ _ (PNone bs)); [exact Ep|rewrite Hd; exact Hr|]. apply C68_none; auto.
Qed.
(** With "gs" and one thread: as many forward Gauss-Seidel sweeps as asked for, starting from what the output vector contained *)
Theorem C71_gs :
  forall (F : Type) (O : SOps F) (R : Field F) (ssqrt sabs : F -> F) slt inv maxthr bs (M0 M : srmat F) o m c st E dbg g dcpu dwall nb na l k r z,
  let N := nbrows M * bs in
  let A := pmatrix bs M in
  session ssqrt sabs slt inv maxthr bs M0 o m c st M -> o_type o = Some "gs"%string ->
  o_sweeps o = Some (nb :: na :: l) -> nb <> (-1)%Z -> na <> (-1)%Z -> o_chunk o = Some k -> (1 <= k)%Z ->
  wf_mat M0 -> wf_end M0 -> inverses_work inv bs -> is_inverse N (bdiag bs A) E -> length r = N -> length z = N ->
  nok (apply_local_blasted dbg 1 g dcpu dwall M c st r z) (applied (iterated (gs_forward bs N A r) (Z.to_nat na) z)).
Proof.
  intros F O R ssqrt sabs slt inv maxthr bs M0 M o m c st E dbg g dcpu dwall nb na l k r z N A Hs Ho Hos Hnb Hna Hoc Hk1 HM0 He Hi HE Hr Hz.
  destruct (C71_session _ _ _ _ _ _ _ _ _ _ _ _ _ _ Hs) as (p & Ep & _ & Hm & HMM & Hl).
  destruct (made_fits bs o p M0 M Hm HMM) as [_ Hd]. pose proof (made_shape bs o p Hm) as (_ & _ & Hsh).
  assert (("gs"%string, GS) ∈ advertised) as Hadv by (apply C45_names; reflexivity).
  destruct (kind_of bs o p _ _ Hm Ho Hadv) as [_ Hk]. destruct Hk as (nb' & na' & l' & ai & k' & E1 & _ & E3 & Hc & _ & Hmean & _); [intros [|[|]]; discriminate|].
  rewrite Hos in E1. injection E1 as <- <- <-. rewrite Hoc in E3. injection E3 as <-.
  destruct (Hmean Hnb Hna) as (Hk & _ & Ha & _). cbn in Hk.
  destruct p as [sh|sh na1 ch|na1 ch|sh na1 ai1 ch|sh|sh i|sh i|i|b]; try discriminate Hk. destruct Hsh as [Hsh|]; [|discriminate]. cbn [pshape] in Hsh.
  assert (na1 = na) as -> by (apply Ha; reflexivity). assert (ch = k) as -> by (apply Hc; reflexivity).
  assert (width sh = bs) as Hw by (rewrite Hsh; unfold shape_for; destruct (decide (bs = 1)); cbn; auto).
  assert (well_equipped inv (PChaotic sh na k) M0) as Heq by (apply (equipped inv bs o); auto).
  apply (apply_local_ok _ _ _ _ _ _ _ _ _ _ (PChaotic sh na k)); [exact Ep|rewrite Hd; exact Hr|].
  pose proof (C68_gs F O R ssqrt sabs inv sh na k maxthr M0 M E st g r z Heq Hl) as H. cbn zeta in H. rewrite Hw, Hd in H.
  unfold A, pmatrix in *. rewrite <- Hsh in *. apply H; auto.
Qed.
(** With "cscbgs" and one thread (scalar matrices only, there is no object for blocks): solves [(D+U) z = r] *)
Theorem C71_csc_bgs :
  forall (F : Type) (O : SOps F) (R : Field F) (ssqrt sabs : F -> F) slt inv maxthr bs (M0 M : srmat F) o m c st dbg g dcpu dwall nb na l k r z,
  let n := nbrows M in
  session ssqrt sabs slt inv maxthr bs M0 o m c st M -> o_type o = Some "cscbgs"%string ->
  o_sweeps o = Some (nb :: na :: l) -> nb <> (-1)%Z -> (1 <= na)%Z -> o_chunk o = Some k -> (1 <= k)%Z ->
  wf_mat M0 -> wf_end M0 -> inverses_work inv bs -> (forall i, i < n -> dense M i i <> s0) -> length r = n -> length z = n ->
  bs = 1 /\ nok (apply_local_blasted dbg 1 g dcpu dwall M c st r z) (applied (fun z' => length z' = n /\ is_prod n (upper (dense M)) z' r)).
Proof.
  intros F O R ssqrt sabs slt inv maxthr bs M0 M o m c st dbg g dcpu dwall nb na l k r z n Hs Ho Hos Hnb Hna Hoc Hk1 HM0 He Hi HD Hr Hz.
  destruct (C71_session _ _ _ _ _ _ _ _ _ _ _ _ _ _ Hs) as (p & Ep & _ & Hm & HMM & Hl).
  destruct (made_fits bs o p M0 M Hm HMM) as [_ Hd]. pose proof (made_shape bs o p Hm) as (_ & Hb & _).
  assert (("cscbgs"%string, CSC_BGS) ∈ advertised) as Hadv by (apply C45_names; reflexivity).
  destruct (kind_of bs o p _ _ Hm Ho Hadv) as [_ Hk]. destruct Hk as (nb' & na' & l' & ai & k' & E1 & _ & E3 & Hc & _ & Hmean & _); [intros [|[|]]; discriminate|].
  rewrite Hos in E1. injection E1 as <- <- <-. rewrite Hoc in E3. injection E3 as <-.
  destruct (Hmean Hnb ltac:(lia)) as (Hk & _ & Ha & _). cbn in Hk.
  destruct p as [sh|sh na1 ch|na1 ch|sh na1 ai1 ch|sh|sh i|sh i|i|b]; try discriminate Hk. cbn in Hb.
  assert (na1 = na) as -> by (apply Ha; reflexivity). assert (ch = k) as -> by (apply Hc; reflexivity).
  split; [symmetry; exact Hb|].
  assert (well_equipped inv (PCscBgs na k) M0) as Heq by (apply (equipped inv bs o); auto).
  apply (apply_local_ok _ _ _ _ _ _ _ _ _ _ (PCscBgs na k)); [exact Ep|unfold n in Hr; rewrite Hd; lia|].
  apply (C68_csc_bgs F O R ssqrt sabs inv na k maxthr M0 M st g r z Heq Hl); auto.
Qed.
