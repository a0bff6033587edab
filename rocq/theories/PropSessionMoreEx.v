(** * PropSessionMoreEx: cases for PropSessionMore *)
From Coq Require Import ZArith QArith.Qcanon Field.
From Verif Require Import Base Alg Coo CooFacts ColMat PropColMat SRMatrix Async AsyncTheory AsyncSystem AsyncSweeps Nd Kernels KernelFacts IluApply IluApplyFacts IluApplyProofs TriSpec TriFacts
  IluApplyMain IluPattern IluFactor IluFactorMain Sgs SgsFacts SgsProofs SgsForms SgsMain Memory Levels PropLevels PropIluInit
  PropIluFactor PropIluApply PropIluSolve Factory PropFactory Petsc PropPetscSetup Objects ObjFacts ObjHistory ObjAlg ObjTotal GsSweep PropObjects PropObjectsEx PropSession PropSessionEx PropSessionMore Inst.
Open Scope nat_scope.

(** the inverse of 4x4 blocks by the adjugate *)
Definition det3 (a b c d e f g h i : Qc) : Qc := (a * (e * i - f * h) - b * (d * i - f * g) + c * (d * h - e * g))%Qc.
Definition det4 (a00 a01 a02 a03 a10 a11 a12 a13 a20 a21 a22 a23 a30 a31 a32 a33 : Qc) : Qc :=
  (a00 * (det3 a11 a12 a13 a21 a22 a23 a31 a32 a33) + a01 * (- det3 a10 a12 a13 a20 a22 a23 a30 a32 a33) + a02 * (det3 a10 a11 a13 a20 a21 a23 a30 a31 a33) + a03 * (- det3 a10 a11 a12 a20 a21 a22 a30 a31 a32))%Qc.
Definition inv4 (b : list Qc) : list Qc :=
  match b with
  | [a00; a10; a20; a30; a01; a11; a21; a31; a02; a12; a22; a32; a03; a13; a23; a33] =>
    let det := det4 a00 a01 a02 a03 a10 a11 a12 a13 a20 a21 a22 a23 a30 a31 a32 a33 in
    [(det3 a11 a12 a13 a21 a22 a23 a31 a32 a33) / det; (- det3 a10 a12 a13 a20 a22 a23 a30 a32 a33) / det; (det3 a10 a11 a13 a20 a21 a23 a30 a31 a33) / det; (- det3 a10 a11 a12 a20 a21 a22 a30 a31 a32) / det;
     (- det3 a01 a02 a03 a21 a22 a23 a31 a32 a33) / det; (det3 a00 a02 a03 a20 a22 a23 a30 a32 a33) / det; (- det3 a00 a01 a03 a20 a21 a23 a30 a31 a33) / det; (det3 a00 a01 a02 a20 a21 a22 a30 a31 a32) / det;
     (det3 a01 a02 a03 a11 a12 a13 a31 a32 a33) / det; (- det3 a00 a02 a03 a10 a12 a13 a30 a32 a33) / det; (det3 a00 a01 a03 a10 a11 a13 a30 a31 a33) / det; (- det3 a00 a01 a02 a10 a11 a12 a30 a31 a32) / det;
     (- det3 a01 a02 a03 a11 a12 a13 a21 a22 a23) / det; (det3 a00 a02 a03 a10 a12 a13 a20 a22 a23) / det; (- det3 a00 a01 a03 a10 a11 a13 a20 a21 a23) / det; (det3 a00 a01 a02 a10 a11 a12 a20 a21 a22) / det]%Qc
  | _ => repeat (q 0) 16
  end.
Lemma over_det (d a b c e x y z w r : Qc) : d <> 0%Qc -> (a * x + b * y + c * z + e * w = r)%Qc ->
  (0 + a * (x / d) + b * (y / d) + c * (z / d) + e * (w / d) = r / d)%Qc.
Proof. intros Hd <-. field. exact Hd. Qed.
Lemma over_det' (d a b c e x y z w r : Qc) : d <> 0%Qc -> (x * a + y * b + z * c + w * e = r)%Qc ->
  (0 + x / d * a + y / d * b + z / d * c + w / d * e = r / d)%Qc.
Proof. intros Hd <-. field. exact Hd. Qed.
Lemma det4_product (a00 a01 a02 a03 a10 a11 a12 a13 a20 a21 a22 a23 a30 a31 a32 a33 y00 y01 y02 y03 y10 y11 y12 y13 y20 y21 y22 y23 y30 y31 y32 y33 : Qc) :
  (det4 a00 a01 a02 a03 a10 a11 a12 a13 a20 a21 a22 a23 a30 a31 a32 a33 * det4 y00 y01 y02 y03 y10 y11 y12 y13 y20 y21 y22 y23 y30 y31 y32 y33 = det4 (a00 * y00 + a01 * y10 + a02 * y20 + a03 * y30) (a00 * y01 + a01 * y11 + a02 * y21 + a03 * y31) (a00 * y02 + a01 * y12 + a02 * y22 + a03 * y32) (a00 * y03 + a01 * y13 + a02 * y23 + a03 * y33) (a10 * y00 + a11 * y10 + a12 * y20 + a13 * y30) (a10 * y01 + a11 * y11 + a12 * y21 + a13 * y31) (a10 * y02 + a11 * y12 + a12 * y22 + a13 * y32) (a10 * y03 + a11 * y13 + a12 * y23 + a13 * y33) (a20 * y00 + a21 * y10 + a22 * y20 + a23 * y30) (a20 * y01 + a21 * y11 + a22 * y21 + a23 * y31) (a20 * y02 + a21 * y12 + a22 * y22 + a23 * y32) (a20 * y03 + a21 * y13 + a22 * y23 + a23 * y33) (a30 * y00 + a31 * y10 + a32 * y20 + a33 * y30) (a30 * y01 + a31 * y11 + a32 * y21 + a33 * y31) (a30 * y02 + a31 * y12 + a32 * y22 + a33 * y32) (a30 * y03 + a31 * y13 + a32 * y23 + a33 * y33))%Qc.
Proof. unfold det4, det3. ring. Qed.
Lemma inv4_oracle : inverse_oracle ColMajor 4 inv4.
Proof.
  intros blk Hb.
  destruct blk as [|a00 [|a10 [|a20 [|a30 [|a01 [|a11 [|a21 [|a31 [|a02 [|a12 [|a22 [|a32 [|a03 [|a13 [|a23 [|a33 [|]]]]]]]]]]]]]]]]]; try discriminate. split; [reflexivity|]. intros Y HY.
  assert (forall p r : nat, p < 4 -> r < 4 ->
    ((match p with 0 => a00 | 1 => a10 | 2 => a20 | _ => a30 end) * Y 0%nat r + (match p with 0 => a01 | 1 => a11 | 2 => a21 | _ => a31 end) * Y 1%nat r + (match p with 0 => a02 | 1 => a12 | 2 => a22 | _ => a32 end) * Y 2%nat r + (match p with 0 => a03 | 1 => a13 | 2 => a23 | _ => a33 end) * Y 3%nat r = ident p r)%Qc) as E.
  { intros p r Hp Hr. destruct (HY p r Hp Hr) as [H _]. unfold mprod in H. cbn -[ident] in H.
    change (Q2Qc _) with 0%Qc in H. rewrite <- H. destruct p as [|[|[|[|]]]]; [cbn; ring..|lia]. }
  set (det := det4 a00 a01 a02 a03 a10 a11 a12 a13 a20 a21 a22 a23 a30 a31 a32 a33).
  assert (det <> 0)%Qc as Hdet.
  { intros Hz. pose proof (det4_product a00 a01 a02 a03 a10 a11 a12 a13 a20 a21 a22 a23 a30 a31 a32 a33 (Y 0 0) (Y 0 1) (Y 0 2) (Y 0 3) (Y 1 0) (Y 1 1) (Y 1 2) (Y 1 3) (Y 2 0) (Y 2 1) (Y 2 2) (Y 2 3) (Y 3 0) (Y 3 1) (Y 3 2) (Y 3 3)) as Hp. fold det in Hp. rewrite Hz in Hp.
    rewrite (E 0 0 ltac:(lia) ltac:(lia) : (a00 * Y 0%nat 0%nat + a01 * Y 1%nat 0%nat + a02 * Y 2%nat 0%nat + a03 * Y 3%nat 0%nat = _)%Qc) in Hp.
    rewrite (E 0 1 ltac:(lia) ltac:(lia) : (a00 * Y 0%nat 1%nat + a01 * Y 1%nat 1%nat + a02 * Y 2%nat 1%nat + a03 * Y 3%nat 1%nat = _)%Qc) in Hp.
    rewrite (E 0 2 ltac:(lia) ltac:(lia) : (a00 * Y 0%nat 2%nat + a01 * Y 1%nat 2%nat + a02 * Y 2%nat 2%nat + a03 * Y 3%nat 2%nat = _)%Qc) in Hp.
    rewrite (E 0 3 ltac:(lia) ltac:(lia) : (a00 * Y 0%nat 3%nat + a01 * Y 1%nat 3%nat + a02 * Y 2%nat 3%nat + a03 * Y 3%nat 3%nat = _)%Qc) in Hp.
    rewrite (E 1 0 ltac:(lia) ltac:(lia) : (a10 * Y 0%nat 0%nat + a11 * Y 1%nat 0%nat + a12 * Y 2%nat 0%nat + a13 * Y 3%nat 0%nat = _)%Qc) in Hp.
    rewrite (E 1 1 ltac:(lia) ltac:(lia) : (a10 * Y 0%nat 1%nat + a11 * Y 1%nat 1%nat + a12 * Y 2%nat 1%nat + a13 * Y 3%nat 1%nat = _)%Qc) in Hp.
    rewrite (E 1 2 ltac:(lia) ltac:(lia) : (a10 * Y 0%nat 2%nat + a11 * Y 1%nat 2%nat + a12 * Y 2%nat 2%nat + a13 * Y 3%nat 2%nat = _)%Qc) in Hp.
    rewrite (E 1 3 ltac:(lia) ltac:(lia) : (a10 * Y 0%nat 3%nat + a11 * Y 1%nat 3%nat + a12 * Y 2%nat 3%nat + a13 * Y 3%nat 3%nat = _)%Qc) in Hp.
    rewrite (E 2 0 ltac:(lia) ltac:(lia) : (a20 * Y 0%nat 0%nat + a21 * Y 1%nat 0%nat + a22 * Y 2%nat 0%nat + a23 * Y 3%nat 0%nat = _)%Qc) in Hp.
    rewrite (E 2 1 ltac:(lia) ltac:(lia) : (a20 * Y 0%nat 1%nat + a21 * Y 1%nat 1%nat + a22 * Y 2%nat 1%nat + a23 * Y 3%nat 1%nat = _)%Qc) in Hp.
    rewrite (E 2 2 ltac:(lia) ltac:(lia) : (a20 * Y 0%nat 2%nat + a21 * Y 1%nat 2%nat + a22 * Y 2%nat 2%nat + a23 * Y 3%nat 2%nat = _)%Qc) in Hp.
    rewrite (E 2 3 ltac:(lia) ltac:(lia) : (a20 * Y 0%nat 3%nat + a21 * Y 1%nat 3%nat + a22 * Y 2%nat 3%nat + a23 * Y 3%nat 3%nat = _)%Qc) in Hp.
    rewrite (E 3 0 ltac:(lia) ltac:(lia) : (a30 * Y 0%nat 0%nat + a31 * Y 1%nat 0%nat + a32 * Y 2%nat 0%nat + a33 * Y 3%nat 0%nat = _)%Qc) in Hp.
    rewrite (E 3 1 ltac:(lia) ltac:(lia) : (a30 * Y 0%nat 1%nat + a31 * Y 1%nat 1%nat + a32 * Y 2%nat 1%nat + a33 * Y 3%nat 1%nat = _)%Qc) in Hp.
    rewrite (E 3 2 ltac:(lia) ltac:(lia) : (a30 * Y 0%nat 2%nat + a31 * Y 1%nat 2%nat + a32 * Y 2%nat 2%nat + a33 * Y 3%nat 2%nat = _)%Qc) in Hp.
    rewrite (E 3 3 ltac:(lia) ltac:(lia) : (a30 * Y 0%nat 3%nat + a31 * Y 1%nat 3%nat + a32 * Y 2%nat 3%nat + a33 * Y 3%nat 3%nat = _)%Qc) in Hp.
    rewrite Qcmult_0_l in Hp. vm_compute in Hp. discriminate Hp. }
  clear E HY.
  intros p r Hp Hr.
  assert (ident p r = ident p r * det / det)%Qc as -> by (field; exact Hdet).
  assert (det = det4 a00 a01 a02 a03 a10 a11 a12 a13 a20 a21 a22 a23 a30 a31 a32 a33) as Ed by reflexivity. clearbody det.
  split; (destruct p as [|[|[|[|]]]]; [..|lia]); (destruct r as [|[|[|[|]]]]; [..|lia]).
  all: unfold mprod, bent, inv4; cbn -[det4 det3]; rewrite <- Ed; change (Q2Qc {| QArith_base.Qnum := 0; QArith_base.Qden := 1 |}) with 0%Qc.
  all: first [simple apply (over_det det)|simple apply (over_det' det)]; [exact Hdet|].
  all: unfold ident; first [rewrite decide_True by lia; change s1 with 1%Qc|rewrite decide_False by lia; change s0 with 0%Qc].
  all: rewrite Ed; unfold det4, det3; ring.
Qed.

(** ** Sessions *)
(** what the factory makes for the options gives a session, for any matrix *)
Lemma session_of bs (M : srmat Qc) o p (inv : list Qc -> list Qc) :
  well_equipped inv p M -> usable p -> fits (pshape p) M -> holds bs M M ->
  (exists m1 c1, createNewPreconditioner (F:=Qc) INIT_F_NONE INIT_A_NONE false sx_mem (setupDataFromOptions (m_facts sx_mem) o
      (Ctx None (Some 0) (Z.of_nat bs) "" JACOBI false 0 0 0 "" "" false None false (q 0) (q 0) (q 0) (q 0) None)).1 = (m1, c1, Fine) /\
    (setupDataFromOptions (m_facts sx_mem) o
      (Ctx None (Some 0) (Z.of_nat bs) "" JACOBI false 0 0 0 "" "" false None false (q 0) (q 0) (q 0) (q 0) None)).2 = Fine /\ c_bprec c1 = Some p /\ c_info c1 = false) ->
  exists m c st, session (fun x => x) (fun x => x) (fun _ _ => false) inv 4 bs M o m c st M /\ c_bprec c = Some p.
Proof.
  intros Heq Hu Hf Hh (m1 & c1 & H1 & H2 & Hp & Hi).
  pose (g0 := Fresh (fun _ _ => q 0) (fun _ _ => 0) (fun _ => 0%Z)).
  pose (pg := {| Sgs.rtol := q 0; atol := q 0; Sgs.dtol := q 0; ctol := false; maxits := 1 |}).
  destruct (C68_calls_return Qc _ (fun x => x) (fun x => x) inv p 4 M Heq Hu) as (H & _ & _).
  destruct (nok_exists _ _ (H pg 2 g0 M ltac:(lia) ltac:(repeat split) Hf)) as ([st i] & Hst & _).
  set (c0 := Ctx None (Some 0) (Z.of_nat bs) "" JACOBI false 0 0 0 "" "" false None false (q 0) (q 0) (q 0) (q 0) None : @ctx Qc) in *.
  assert (exists m' c', shell_setup (fun x => x) (fun x => x) inv 2 g0 pg INIT_F_NONE INIT_A_NONE false o (q 0) (q 0) M sx_mem c0 (p_new pg) (Ok (m', c', st, Fine)) /\ c_bprec c' = Some p) as (m' & c' & Hsu & Ep).
  { unfold shell_setup. change (c_first c0) with false. cbn iota.
    destruct (setupDataFromOptions (m_facts sx_mem) o c0) as [c1' s1]. cbn [fst snd] in H1, H2. subst s1. rewrite H1.
    rewrite Hp. unfold updatePreconditioner. rewrite Hi.
    eexists _, _. split; [exists (Ok (inl (st, i))); split; [exists (Ok (st, i)); split; [exact Hst|reflexivity]|]|]; [cbn; unfold updatePreconditioner; rewrite ?Hp, ?Hi; reflexivity|reflexivity]. }
  exists m', c', st. split; [|exact Ep].
  refine (ss_first _ _ _ _ 4 bs M _ 2 g0 pg INIT_F_NONE INIT_A_NONE false (q 0) (q 0) M sx_mem c0 _ m' c' st _ _ _ _ Hh Hsu); try reflexivity; try lia.
  exists 0. split; reflexivity.
Qed.

(** scalar sessions: the type, the counts, scaling, and the object that results *)
Definition my_options (s : string) (nb na : Z) (sc : bool) : options :=
  Options (Some s) (Some [nb; na]) (Some sc) (Some "init_original"%string) (Some "init_zero"%string) (Some 4%Z) (Some false).
Definition my_sessions : list (string * Z * Z * bool * prec) :=
  [("ilu0", -1, -1, true, PIlu Scalar (Ilu 1 1 true 4 INIT_F_NONE INIT_A_ZERO false false false));
   ("ilu0", -1, 3, false, PIlu Scalar (Ilu 1 3 false 4 INIT_F_NONE INIT_A_ZERO false true false));
   ("sapilu0", 2, 7, false, PIlu Scalar (Ilu 2 7 false 4 INIT_F_ORIGINAL INIT_A_ZERO true false false));
   ("gs", -1, -1, false, PIlu Scalar (Ilu 1 1 false 4 INIT_F_NONE INIT_A_ZERO false false false));
   ("async_level_ilu0", 2, 7, true, PLevelIlu Scalar (Ilu 2 1 true 4 INIT_F_ORIGINAL INIT_A_NONE true true true));
   ("gs", 2, 7, false, PChaotic Scalar 7 4); ("cscbgs", 2, 7, false, PCscBgs 7 4); ("none", 2, 7, false, PNone 1)]%string%Z.
Example C71_more_case : forall s nb na sc p, (s, nb, na, sc, p) ∈ my_sessions ->
  exists m c st, session (fun x => x) (fun x => x) (fun _ _ => false) (fun b => b) 4 1 exM (my_options s nb na sc) m c st exM /\ c_bprec c = Some p.
Proof.
  intros s nb na sc p Hs.
  assert (sym_pattern exM) as Hsym by (apply sym3; reflexivity).
  assert (wf_end exM) as He by (split; [reflexivity|]; intros i Hi; cbn in Hi; destruct i as [|[|[|i]]]; [reflexivity..|lia]).
  unfold my_sessions in Hs. repeat (apply elem_of_cons in Hs as [Hs|Hs]; [injection Hs as -> -> -> -> ->|]); [..|apply elem_of_nil in Hs as []].
  all: apply session_of; [|clear; cbn; try (split; [lia|]); try (split; [discriminate|]); first [lia|exact Logic.I|intros _; left; discriminate]|reflexivity|repeat split|eexists _, _; split; [reflexivity|repeat split; reflexivity]].
  all: split; [exact exM_wf|]; split; [intros _; exact Hsym|]; first [exact Logic.I|split; [exact Logic.I|exact He]|exact He].
Qed.
(** the other hypotheses of C71_ilu: the options, and the factors of the scaled matrix D^-1 A D^-1 (the identity as square root) *)
Example C71_ilu_options_case : forall s nb na sc p, (s, nb, na, sc, p) ∈ take 5 my_sessions ->
  exists t, (s, t) ∈ advertised /\ acts_as_ilu t nb na /\ asked (my_options s nb na sc) t nb na "init_zero" sc.
Proof.
  intros s nb na sc p Hs. unfold my_sessions in Hs. cbn [take] in Hs. unfold acts_as_ilu, asked, starts_factor, direct.
  repeat (apply elem_of_cons in Hs as [Hs|Hs]; [injection Hs as -> -> -> -> ->|]); [..|apply elem_of_nil in Hs as []].
  all: eexists; split; [apply C45_names; reflexivity|].
  all: split; [|split; [eexists _, _; split; reflexivity|split; [reflexivity|split; [reflexivity || (intros [|[|]]; discriminate)|tauto]]]].
  - right. left. split; [auto|]. lia.
  - right. left. split; [auto|]. lia.
  - right. left. split; [auto|]. lia.
  - right. right. right. split; [intros [|[|]]; discriminate|]. split; [discriminate|]. auto.
  - right. right. left. split; [reflexivity|]. lia.
Qed.
Definition exM_slu : list Qc := [q 1 / q 4; q 1 / q 20; q 2 / q 5; q 9 / q 50; q 1 / q 15; q 10 / q 27; q 25 / q 81]%Qc.
Example C71_ilu_case : holds 1 exM exM /\ length exM_slu = nnz exM /\ (forall k, k < nbrows exM -> entry exM exM_slu k k <> s0) /\
  exact_on_pattern exM (unitlower (entry exM exM_slu)) (upper (entry exM exM_slu)) (scaled_mat (scale_used (fun x => x) true 3 (dense exM)) (dense exM)) /\
  sym_pattern exM.
Proof.
  split; [repeat split|]. split; [reflexivity|]. split; [intros [|[|[|]]] H; [vm_compute; discriminate..|cbn in H; lia]|].
  split; [|apply sym3; reflexivity].
  intros i j Hi Hj _. cbn in Hi, Hj. destruct i as [|[|[|]]]; try lia; destruct j as [|[|[|]]]; try lia;
    apply Qc_is_canon; vm_compute; reflexivity.
Qed.

(** blocks: two block rows of 4x4 blocks, stored by columns *)
Definition exT : srmat Qc :=
  SR [0; 2; 4] [0; 1; 0; 1] (q <$> [1; 0; 0; 0; 1; 1; 0; 0; 0; 0; 1; 0; 0; 0; 0; 1;  1; 0; 0; 0; 0; 1; 0; 0; 0; 0; 1; 0; 0; 0; 0; 1;  2; 0; 0; 0; 2; 2; 0; 0; 0; 0; 2; 0; 0; 0; 0; 2;  3; 0; 0; 0; 0; 3; 0; 0; 0; 0; 3; 0; 0; 0; 0; 3]%Z)
    [0; 3] [2; 4] 2 4 4.
Definition exT_lu : list Qc := q <$> [1; 0; 0; 0; 1; 1; 0; 0; 0; 0; 1; 0; 0; 0; 0; 1;  1; 0; 0; 0; 0; 1; 0; 0; 0; 0; 1; 0; 0; 0; 0; 1;  2; 0; 0; 0; 0; 2; 0; 0; 0; 0; 2; 0; 0; 0; 0; 2;  1; 0; 0; 0; 0; 1; 0; 0; 0; 0; 1; 0; 0; 0; 0; 1]%Z.
Definition my_block_sessions : list (string * Z * Z * bool * prec) :=
  [("ilu0", -1, -1, false, PIlu (Blocks 4 ColMajor) (Ilu 1 1 false 4 INIT_F_NONE INIT_A_ZERO false false false));
   ("sfilu0", 2, 7, false, PIlu (Blocks 4 ColMajor) (Ilu 2 7 false 4 INIT_F_NONE INIT_A_ZERO false true false));
   ("seqilu0", 2, 7, false, PIlu (Blocks 4 ColMajor) (Ilu 2 7 false 4 INIT_F_NONE INIT_A_ZERO false false false));
   ("gs", 2, 7, false, PChaotic (Blocks 4 ColMajor) 7 4); ("none", 2, 7, false, PNone 4)]%string%Z.
Example C71_block_ilu_case :
  (forall s nb na sc p, (s, nb, na, sc, p) ∈ my_block_sessions ->
    exists m c st, session (fun x => x) (fun x => x) (fun _ _ => false) inv4 4 4 exT (my_options s nb na sc) m c st exT /\ c_bprec c = Some p) /\
  wf_mat exT /\ wf_end exT /\ holds 4 exT exT /\ inverse_oracle ColMajor 4 inv4 /\ length exT_lu = nnz exT * (4 * 4) /\
  (forall k, k < nbrows exT -> exists Y, is_inverse 4 (dblock 4 (bentry ColMajor 4 exT exT_lu) k) Y) /\
  bexact_on_pattern 4 exT (bunitlower 4 (bentry ColMajor 4 exT exT_lu)) (bupper 4 (bentry ColMajor 4 exT exT_lu) (bentry ColMajor 4 exT exT_lu))
    (scaled_mat (scale_used (fun x => x) false 8 (bdense ColMajor 4 exT)) (bdense ColMajor 4 exT)).
Proof.
  assert (wf_mat exT) as HM by (split; [apply wfb_pat_ok; reflexivity|split; [apply wfb_diag_ok; reflexivity|apply wfb_sorted_ok; reflexivity]]).
  assert (wf_end exT) as He by (split; [reflexivity|intros [|[|]] H; simpl in H; try lia; reflexivity]).
  assert (lawful inv4 (Blocks 4 ColMajor)) as Hlaw by (split; [lia|exact inv4_oracle]).
  split.
  { intros s nb na sc p Hs.
    unfold my_block_sessions in Hs. repeat (apply elem_of_cons in Hs as [Hs|Hs]; [injection Hs as -> -> -> -> ->|]); [..|apply elem_of_nil in Hs as []].
    all: apply session_of; [|clear; cbn; try (split; [lia|]); try (split; [discriminate|]); first [lia|exact Logic.I|intros _; left; discriminate]|reflexivity|repeat split|eexists _, _; split; [reflexivity|repeat split; reflexivity]].
    all: split; [exact HM|]; split; [discriminate|]; first [exact Logic.I|exact Hlaw|split; [exact Hlaw|exact He]|exact He]. }
  split; [exact HM|]. split; [exact He|]. split; [repeat split|]. split; [exact inv4_oracle|]. split; [reflexivity|]. split.
  - intros [|[|]] H; [| |cbn in H; lia].
    + exists (fun p r => match p, r with 0, 0 | 1, 1 | 2, 2 | 3, 3 => q 1 | 0, 1 => q (-1) | _, _ => q 0 end).
      intros [|[|[|[|]]]] [|[|[|[|]]]] H1 H2; try lia; split; apply Qc_is_canon; vm_compute; reflexivity.
    + exists (fun p r => match p, r with 0, 0 | 1, 1 | 2, 2 | 3, 3 => q 1 | _, _ => q 0 end).
      intros [|[|[|[|]]]] [|[|[|[|]]]] H1 H2; try lia; split; apply Qc_is_canon; vm_compute; reflexivity.
  - intros I J HI HJ _. cbn in HI, HJ. do 8 (destruct I as [|I]; [do 8 (destruct J as [|J]; [apply Qc_is_canon; vm_compute; reflexivity|]); lia|]). lia.
Qed.

Print Assumptions C71_ilu.
Print Assumptions C71_block_ilu.
Print Assumptions C71_none.
Print Assumptions C71_gs.
Print Assumptions C71_csc_bgs.
