(** * C80: a matrix object behaves like the matrix its user has in mind, whatever calls are made on it *)
From Verif Require Import Base Alg SRMatrix Nd TriSpec TriFacts AssemblySpec BlockMat Matvec Reorder ReorderFacts ReorderMain ReorderedIlu Inst MatObj MatObjSpec
  IluFactorMain PropMatvec PropAssembly PropBlockMat PropConstruct PropReorder.
From Coq Require Import QArith.Qcanon ZArith.
Open Scope nat_scope.

(** ** What holds of an object between calls *)
Section Refine.
  Context {F : Type} {O : SOps F}.
  Variable cl : option nat.
  Hypothesis Hbs : 0 < width cl.
  Notation bs := (width cl).
  Record shape (a : amat F) (M : srmat F) : Prop := {
    sh_rows : nbrows M = a_rows a;
    sh_pat : wf_pat M;
    sh_end : wf_end M;
    sh_vals : wf_vals bs M;
    sh_count : nnzb M = nnz M;
    sh_dlen : length (diagind M) = nbrows M;
    sh_nodup : wf_nodup M;
    sh_sorted : cl = None -> wf_sorted M;
    sh_stored : forall i j, i < a_rows a -> j < a_rows a -> pos M i j <> None <-> a_stored a i j = true;
    sh_diag : a_diag a = true -> wf_diag M
  }.
  Definition numbers (a : amat F) (M : srmat F) : Prop :=
    forall I J x, I < a_rows a * bs -> J < a_rows a * bs -> a_stored a (I / bs) (J / bs) = true -> a_num a I J = Some x -> bdense RowMajor bs M I J = x.
  Definition refines (a : amat F) (M : srmat F) : Prop := shape a M /\ numbers a M.

  Lemma rp_same (M M' : srmat F) i : same_structure M M' -> rp M' i = rp M i.
  Proof. intros (H & _). unfold rp. rewrite H. reflexivity. Qed.
  Lemma shape_same a M M' num : shape a M -> same_structure M M' -> shape (aset a num) M'.
  Proof.
    intros [H1 H2 H3 H4 H5 H6 H7 H8 H9 H10] Hs. pose proof Hs as (E1 & E2 & E3 & E4 & E5 & E6 & E7 & E8).
    assert (nnz M' = nnz M) as En by (unfold nnz; rewrite E5; apply rp_same, Hs).
    assert (forall i, rp M' i = rp M i) as Er by (intros; apply rp_same, Hs).
    assert (forall i, col M' i = col M i) as Ec by (intros; unfold col; rewrite E2; reflexivity).
    assert (forall i, dg M' i = dg M i) as Ed by (intros; unfold dg; rewrite E3; reflexivity).
    assert (forall i j, inrow M' i j <-> inrow M i j) as Ei by (intros; unfold inrow; rewrite !Er, E5; reflexivity).
    constructor; simpl.
    - congruence.
    - destruct H2. split; rewrite ?E1, ?E2, ?E5, ?En, ?Er; auto; intros; rewrite ?Er, ?Ec; auto.
    - destruct H3 as [H31 H32]. split; [congruence|]. intros i Hi. rewrite E4, Er. apply H32. congruence.
    - unfold wf_vals in *. rewrite E8, En. exact H4.
    - congruence.
    - congruence.
    - intros i j1 j2 Hi Hj1 Hj2 Hc. rewrite !Ec in Hc. apply (H7 i); [congruence|apply Ei; assumption|apply Ei; assumption|exact Hc].
    - intros Hc i j1 j2. rewrite E5, !Er, !Ec. apply (H8 Hc).
    - intros i j Hi Hj. rewrite (pos_same M M') by exact Hs. auto.
    - intros Hd. destruct (H10 Hd) as [D1 D2]. split; [congruence|]. intros i Hi. rewrite !Er, Ed, Ec. apply D2. congruence.
  Qed.
  Lemma div_lt I n : I < n * bs -> I / bs < n.
  Proof. intros. apply Nat.div_lt_upper_bound; lia. Qed.
  Lemma pos_stored a M I J : shape a M -> I < a_rows a * bs -> J < a_rows a * bs -> a_stored a (I / bs) (J / bs) = true ->
    exists p, pos M (I / bs) (J / bs) = Some p.
  Proof.
    intros Hs HI HJ Hst. destruct (pos M (I / bs) (J / bs)) as [p|] eqn:E; [eauto|]. exfalso.
    apply (sh_stored a M Hs (I / bs) (J / bs)) in Hst; [exact (Hst E)|apply div_lt, HI|apply div_lt, HJ].
  Qed.

  (** *** a change of all values *)
  Lemma bdense_map (g : F -> F) (M M' : srmat F) I J : wf_pat M -> wf_vals bs M -> same_structure M M' -> vals M' = g <$> vals M -> I < nbrows M * bs ->
    forall p, pos M (I / bs) (J / bs) = Some p -> bdense RowMajor bs M' I J = g (bdense RowMajor bs M I J).
  Proof.
    intros Hw Hv Hs E HI p Hp. unfold bdense. rewrite (pos_same M M') by exact Hs. rewrite Hp. unfold bent. rewrite E, list_lookup_fmap.
    apply pos_Some in Hp as [Hj _]; [|apply div_lt, HI]. pose proof (inrow_lt M _ _ Hw Hj) as Hlt.
    pose proof (Nat.mod_upper_bound I bs ltac:(lia)). pose proof (Nat.mod_upper_bound J bs ltac:(lia)).
    destruct (lookup_lt_is_Some_2 (vals M) (p * (bs * bs) + lay RowMajor bs (I mod bs) (J mod bs))) as [x ->]; [|reflexivity].
    rewrite Hv. simpl. nia.
  Qed.
  Lemma refines_map (g : F -> F) a M M' : refines a M -> same_structure M M' -> vals M' = g <$> vals M ->
    refines (aset a (fun I J => g <$> a_num a I J)) M'.
  Proof.
    intros [Hs Hn] Hss E. split; [eapply shape_same; eauto|]. intros I J x HI HJ Hst Hx. simpl in *.
    destruct (a_num a I J) as [x0|] eqn:E0; [|discriminate]. injection Hx as <-.
    destruct (pos_stored a M I J Hs HI HJ Hst) as [p Hp].
    rewrite (bdense_map g M M' I J) with (p := p); [f_equal; apply (Hn I J); auto|apply Hs|apply Hs|exact Hss|exact E|rewrite (sh_rows a M Hs); exact HI|exact Hp].
  Qed.
  Lemma step_zero a M : refines a M -> nok (mstep cl MSetAllZero M) (refines (astep cl MSetAllZero a)).
  Proof.
    intros [Hs Hn]. assert (nok (mstep cl MSetAllZero M) (fun M' => same_structure M M' /\ vals M' = replicate (length (vals M)) s0)) as H.
    { unfold mstep. clear Hn. destruct Hs as [? ? ? Hv ? ? ? ? ? ?]. destruct cl as [b|]; [apply C15_block_zero|apply C15_scalar_zero]; auto. }
    eapply nok_mono; [exact H|]. intros M' [Hss E]. simpl. assert (vals M' = (fun _ => s0) <$> vals M) as E'.
    { rewrite E. clear. induction (vals M) as [|x l IH]; [reflexivity|]. simpl. f_equal. exact IH. }
    split; [eapply shape_same; eauto|]. intros I J x HI HJ Hst Hx. simpl in *. injection Hx as <-.
    destruct (pos_stored a M I J Hs HI HJ Hst) as [p Hp].
    apply (bdense_map (fun _ => s0) M M' I J) with (p := p); [apply Hs|apply Hs|exact Hss|exact E'|rewrite (sh_rows a M Hs); exact HI|exact Hp].
  Qed.
  Lemma step_scale f a M : refines a M -> nok (mstep cl (MScaleAll f) M) (refines (astep cl (MScaleAll f) a)).
  Proof.
    intros Hr. pose proof Hr as [Hs _]. assert (nok (mstep cl (MScaleAll f) M) (fun M' => same_structure M M' /\ vals M' = (fun x => (x * f)%s) <$> vals M)) as H.
    { unfold mstep. clear Hr. destruct Hs as [? ? ? Hv ? ? ? ? ? ?]. destruct cl as [b|]; [apply C15_block_scale|apply C15_scalar_scale]; auto. }
    eapply nok_mono; [exact H|]. intros M' [Hss E]. simpl. apply (refines_map (fun x => (x * f)%s) a M M' Hr Hss E).
  Qed.
  Lemma step_diag a M : refines a M -> a_diag a = true -> nok (mstep cl MSetDiagZero M) (refines (astep cl MSetDiagZero a)).
  Proof.
    intros [Hs Hn] Hd. unfold mstep. eapply nok_mono; [apply (C15_diag_zero RowMajor); try apply Hs; auto|]. intros M' [Hss E].
    split; [eapply shape_same; eauto|]. intros I J x HI HJ Hst Hx. simpl in *. rewrite E by (rewrite (sh_rows a M Hs); exact HI).
    destruct (Nat.eqb_spec (I / bs) (J / bs)); [rewrite decide_True by assumption; congruence|]. rewrite decide_False by assumption. apply (Hn I J); auto.
  Qed.

  (** *** setStructure and copies *)
  Lemma row_cols_elem bcinds brptrs i j : j ∈ row_cols bcinds brptrs i <-> exists k, brptrs !!! i <= k < brptrs !!! (i + 1) /\ bcinds !! k = Some j.
  Proof.
    unfold row_cols. rewrite elem_of_list_lookup. split.
    - intros [k Hk]. pose proof (lookup_lt_Some _ _ _ Hk) as Hlt. rewrite take_length in Hlt. rewrite lookup_take in Hk by lia. rewrite lookup_drop in Hk.
      exists (brptrs !!! i + k). split; [lia|exact Hk].
    - intros (k & Hk & E). exists (k - brptrs !!! i). rewrite lookup_take by lia. rewrite lookup_drop. replace (_ + _) with k by lia. exact E.
  Qed.
  Lemma step_structure n bcinds brptrs a old : legal_pattern cl n bcinds brptrs ->
    nok (mstep cl (MSetStructure n bcinds brptrs) old) (refines (astep cl (MSetStructure n bcinds brptrs) a)).
  Proof.
    intros [P0 P1 P2 P3 P4 P5 P6]. assert (pattern_ok n brptrs bcinds) as Hp by (split; auto). unfold mstep.
    split; [eexists; exists (fun _ => 0), (fun _ => 0), (fun _ => 0), (fun _ => s0); reflexivity|]. intros o (gp & gi & gd & gv & ->).
    eapply ok_mono; [apply (C55_set_structure bs gp gi gd gv old n brptrs bcinds Hp); left; exact P0|]. intros M Hb.
    destruct (C55_well_formed bs n brptrs bcinds M Hb Hp P2 P5) as (W1 & W2 & W3 & W4). destruct Hb as [B1 B2 B3 [B4 _] B5 B6 B7 _].
    assert (forall i, rp M i = brptrs !!! i) as Er by (intros; unfold rp; rewrite B2; reflexivity).
    assert (nnz M = brptrs !!! n) as En by (unfold nnz; rewrite B1; apply Er).
    assert (forall j, j < brptrs !!! n -> col M j = bcinds !!! j) as Ec.
    { intros j Hj. unfold col. rewrite B3. apply list_lookup_total_correct. rewrite lookup_take by exact Hj. apply lookup_total_Some. lia. }
    assert (forall i j, i < n -> brptrs !!! i <= j < brptrs !!! (i + 1) -> j < brptrs !!! n) as Hlt.
    { intros i j Hi Hj. pose proof (po_le n brptrs bcinds (i + 1) n Hp ltac:(lia) ltac:(lia)). lia. }
    assert (forall i j, i < n -> (exists k, brptrs !!! i <= k < brptrs !!! (i + 1) /\ bcinds !! k = Some j) <-> pos M i j <> None) as Hpos.
    { intros i j Hi. split.
      - intros (k & Hk & E) Hnone. apply (proj1 (pos_None M i j ltac:(lia)) Hnone k).
        { split; [rewrite B1; exact Hi|rewrite !Er; exact Hk]. }
        rewrite Ec by eauto. apply list_lookup_total_correct, E.
      - intros Hne. destruct (pos M i j) as [k|] eqn:E; [|congruence]. apply pos_Some in E as [[_ H1] H2]; [|rewrite B1; exact Hi]. rewrite !Er in H1.
        exists k. split; [exact H1|]. pose proof (Hlt i k Hi H1). rewrite Ec in H2 by assumption. rewrite <- H2. apply lookup_total_Some. lia. }
    split; [constructor; simpl|].
    - exact B1.
    - exact W1.
    - exact W2.
    - exact W3.
    - rewrite En. exact B4.
    - rewrite B1. exact B7.
    - intros i j1 j2 Hi [_ H1] [_ H2] E. rewrite B1 in Hi. rewrite !Er in H1, H2. rewrite !Ec in E by eauto.
      destruct (lt_eq_lt_dec j1 j2) as [[Hlt'|Heq]|Hlt']; [exfalso|exact Heq|exfalso].
      + pose proof (P6 i j1 j2 Hi ltac:(lia) Hlt' ltac:(lia)) as P. destruct cl; [exact (P E)|lia].
      + pose proof (P6 i j2 j1 Hi ltac:(lia) Hlt' ltac:(lia)) as P. destruct cl; [exact (P (eq_sym E))|lia].
    - intros Ecl i j1 j2 Hi H1 H12 H2. rewrite B1 in Hi. rewrite !Er in H1, H2. rewrite !Ec by (eapply Hlt; [exact Hi|lia]).
      pose proof (P6 i j1 j2 Hi H1 H12 H2) as P. rewrite Ecl in P. exact P.
    - intros i j Hi Hj. rewrite bool_decide_eq_true, row_cols_elem. symmetry. apply Hpos, Hi.
    - intros Hd. apply W4. intros i Hi. rewrite forallb_forall in Hd. specialize (Hd i ltac:(apply in_seq; lia)). rewrite bool_decide_eq_true in Hd.
      apply row_cols_elem, Hd.
    - intros I J x _ _ _ Hx. discriminate Hx.
  Qed.
  Lemma step_copy a M : refines a M -> nok (mstep cl MCopy M) (refines (astep cl MCopy a)).
  Proof.
    intros Hr. pose proof Hr as [Hs _]. unfold mstep. split; [eexists; exists (fun _ => 0), (fun _ => 0), (fun _ => 0), (fun _ => s0); reflexivity|].
    intros o (gp & gi & gd & gv & ->). rewrite (C55_copy bs gp gi gd gv M); [exact Hr|apply Hs..].
  Qed.
End Refine.

(** *** blocks *)
Section Blocks.
  Context {F : Type} {O : SOps F}.
  Lemma rect_in_stored (a : amat F) M i j h w : shape None a M -> rect_in a i j h w -> rect_stored M i j h w.
  Proof.
    intros Hs (H1 & H2 & H3). split; [rewrite (sh_rows _ a M Hs); exact H1|]. intros I J Hin. apply (sh_stored _ a M Hs); [unfold in_rect in Hin; lia..|].
    apply H3, Hin.
  Qed.
  Lemma step_submit cl i j b h w (a : amat F) M : 0 < width cl -> refines cl a M -> legal cl (MSubmitBlock i j b h w) a ->
    nok (mstep cl (MSubmitBlock i j b h w) M) (refines cl (astep cl (MSubmitBlock i j b h w) a)).
  Proof.
    intros Hbs [Hs Hn] Hl. simpl in Hl. unfold mstep. apply nok_lift. pose proof (sh_rows _ a M Hs) as En. destruct cl as [b'|]; simpl in *.
    - destruct Hl as [Hi Hb]. rewrite <- En in Hi. eapply ok_mono; [apply (C13_submit b' M i j b Hbs (sh_pat _ a M Hs) (sh_end _ a M Hs) (sh_vals _ a M Hs) Hi Hb)|]. intros M' [Hss E].
      split; [eapply shape_same; eauto|]. intros I J x HI HJ Hst Hx. simpl in *. rewrite E by (rewrite En; exact HI).
      case_decide as Hc.
      + rewrite decide_True; [congruence|]. split; [exact Hc|]. apply (sh_stored _ a M Hs); auto; apply Nat.div_lt_upper_bound; lia.
      + rewrite decide_False by tauto. apply (Hn I J); auto.
    - destruct Hl as [Hr Hb]. eapply ok_mono; [apply (C14_submit M i j h w b (sh_pat _ a M Hs) (sh_sorted _ a M Hs eq_refl) (sh_vals _ a M Hs) (rect_in_stored a M i j h w Hs Hr) Hb)|]. intros M' [Hss E].
      split; [eapply shape_same; eauto|]. intros I J x HI HJ Hst Hx. simpl in *. rewrite bdense_1, E by lia.
      case_decide as Hc; [congruence|]. rewrite <- (bdense_1 M I J RowMajor). apply (Hn I J); auto.
  Qed.
End Blocks.

(** *** assembly *)
Section Assembling.
  Context {F : Type} {O : SOps F} {R : CRing F}.
  Lemma step_assemble cl threads (a : amat F) M : 0 < width cl -> refines cl a M -> legal cl (MAssemble threads) a ->
    nok (mstep cl (MAssemble threads) M) (refines cl (astep cl (MAssemble threads) a)).
  Proof.
    intros Hbs [Hs Hn] Hl. simpl in Hl. unfold mstep. pose proof (sh_rows _ a M Hs) as En.
    assert ((exists i b n, UpdateDiag i b n ∈ concat threads) -> wf_diag M) as Hd.
    { intros (i & b & n & Hin). apply (sh_diag _ a M Hs). specialize (Hl _ Hin). destruct cl; simpl in Hl; apply Hl. }
    destruct cl as [b'|]; cbn [width] in *.
    - eapply nok_mono; [apply (C13_block_assembly b' M threads Hbs (sh_pat _ a M Hs) (sh_nodup _ a M Hs) Hd (sh_vals _ a M Hs))|].
      { intros c Hc. specialize (Hl c Hc). destruct c; simpl in Hl |- *; rewrite En; tauto. }
      intros M' [Hss E]. split; [eapply shape_same; eauto|]. intros I J x HI HJ Hst Hx. simpl in *.
      destruct (a_num a I J) as [x0|] eqn:E0; [|discriminate]. injection Hx as <-.
      rewrite E by (rewrite En; exact HI). destruct (pos_stored (Some b') Hbs a M I J Hs HI HJ Hst) as [p Hp]. simpl in Hp. rewrite Hp.
      f_equal. apply (Hn I J); auto.
    - eapply nok_mono; [apply (C13_scalar_assembly M threads (sh_pat _ a M Hs) (sh_sorted _ a M Hs eq_refl) Hd (sh_vals _ a M Hs))|].
      { intros c Hc. specialize (Hl c Hc). destruct c; simpl in Hl |- *; destruct Hl as (H1 & H2 & H3); (split; [split; [apply (rect_in_stored a); assumption|assumption]|]); [exact H3|exact Logic.I]. }
      intros M' [Hss E]. split; [eapply shape_same; eauto|]. intros I J x HI HJ Hst Hx. cbn [astep aset a_rows a_stored a_num width] in *.
      destruct (a_num a I J) as [x0|] eqn:E0; [|discriminate]. injection Hx as <-.
      rewrite bdense_1, E by (rewrite En; lia). destruct (pos_stored None Hbs a M I J Hs HI HJ Hst) as [p Hp]. cbn [width] in Hp. rewrite !Nat.div_1_r in Hp. rewrite Hp.
      f_equal. rewrite <- (bdense_1 M I J RowMajor). apply (Hn I J); auto.
  Qed.
End Assembling.

(** *** reordering and scaling *)
Section Reordering.
  Context {F : Type} {O : SOps F}.
  Lemma stored_pos bs (M : srmat F) i j : stored bs M i j <> None <-> pos M i j <> None.
  Proof. unfold stored. destruct (pos M i j); simpl; split; congruence. Qed.
  Lemma stored_length bs (M : srmat F) i j b : wf_pat M -> wf_vals bs M -> i < nbrows M -> stored bs M i j = Some b -> length b = bs * bs.
  Proof.
    intros Hw Hv Hi E. unfold stored in E. destruct (pos M i j) as [k|] eqn:Ep; [|discriminate]. simpl in E. injection E as <-.
    apply pos_Some in Ep as [Hin _]; [|exact Hi]. pose proof (inrow_lt M _ _ Hw Hin). rewrite take_length, drop_length, Hv. nia.
  Qed.
  Lemma oback_oget n x i : is_order n x -> i < n -> oback x (oget x i) = i.
  Proof.
    destruct x as [p|]; [|reflexivity]. simpl. intros Hp Hi. pose proof (perm_get n p i Hp Hi) as E.
    destruct (list_find (fun v => v = p !!! i) p) as [[k y]|] eqn:Ef.
    - apply list_find_Some in Ef as (E1 & E2 & _). apply (perm_inj n p k i (p !!! i) Hp); congruence.
    - exfalso. apply list_find_None in Ef. rewrite Forall_forall in Ef. apply (Ef (p !!! i)); [eapply elem_of_list_lookup_2; eauto|reflexivity].
  Qed.
  Lemma oget_oback n x i : is_order n x -> i < n -> oget x (oback x i) = i /\ oback x i < n.
  Proof.
    intros Hx Hi. destruct (oget_surj n x i Hx Hi) as (k & Hk & <-). rewrite (oback_oget n) by assumption. auto.
  Qed.
  (** from blocks to entries *)
  Lemma entry_block bs (M M' : srmat F) i j i' j' (g : F -> F) p q : wf_pat M -> wf_vals bs M -> i' < nbrows M -> p < bs -> q < bs ->
    stored bs M' i j = option_map (map g) (stored bs M i' j') -> stored bs M i' j' <> None ->
    bdense RowMajor bs M' (i * bs + p) (j * bs + q) = g (bdense RowMajor bs M (i' * bs + p) (j' * bs + q)).
  Proof.
    intros Hw Hv Hi Hp Hq E Hne. rewrite !bdense_stored by assumption. rewrite E. destruct (stored bs M i' j') as [b|] eqn:Eb; [|congruence]. simpl.
    change (map g b) with (g <$> b). rewrite list_lookup_fmap. destruct (lookup_lt_is_Some_2 b (p * bs + q)) as [x ->]; [|reflexivity].
    rewrite (stored_length bs M i' j' b Hw Hv Hi Eb). nia.
  Qed.
  Lemma option_map_map_id {A B C} (f : A -> B) (g : B -> C) (o : option (list A)) : option_map (map g) (option_map (map f) o) = option_map (map (fun x => g (f x))) o.
  Proof. destruct o; simpl; [rewrite map_map|]; reflexivity. Qed.
  Definition moved (mode : RSApplyMode) (x : option (list nat)) (i : nat) : nat := match mode with FORWARD => oget x i | INVERSE => oback x i end.
  Lemma moved_lt n mode x i : is_order n x -> i < n -> moved mode x i < n.
  Proof. intros Hx Hi. destruct mode; simpl; [apply oget_lt; assumption|apply (oget_oback n x i Hx Hi)]. Qed.
  Lemma order_ok bs mode rord cord o (M : srmat F) : mat_ok bs M -> with_ordering (nbrows M) rord cord o ->
    nok (applyOrdering_mat bs o mode M) (fun M' => nbrows M' = nbrows M /\ mat_ok bs M' /\ nnz M' = nnz M /\ nnzb M' = nnzb M /\ diagind M' = diagind M /\
      (cord <> None \/ wf_sorted M -> wf_sorted M') /\ (rord = None -> cord = None -> M' = M) /\
      forall i j, i < nbrows M -> j < nbrows M -> stored bs M' i j = stored bs M (moved mode rord i) (moved mode cord j)).
  Proof.
    intros HM Ho. pose proof (with_ordering_of _ _ _ _ Ho) as Ho'. pose proof Ho as (O1 & O2 & E). pose proof HM as (Hw & Hnd & Hv).
    assert (nok (applyOrdering_mat bs o mode M) (fun M' => rord = None -> cord = None -> M' = M)) as Hnone.
    { destruct rord as [p|]; [|destruct cord as [p|]].
      - destruct mode; (eapply nok_mono; [eapply C19_forward || eapply C19_inverse; eauto|]); intros M' _ Hno; discriminate.
      - destruct mode; (eapply nok_mono; [eapply C19_forward || eapply C19_inverse; eauto|]); intros M' _ _ Hno; discriminate.
      - simpl in E. injection E as <-. destruct mode; simpl; (apply nok_bind with (P := fun M' => M' = M); [apply nok_ret; reflexivity|]); intros M' ->; apply nok_ret; reflexivity. }
    destruct mode.
    - eapply nok_mono; [apply (nok_and _ _ _ Hnone (nok_and _ _ _ (C19_forward F O bs M rord cord o HM Ho) (order_fwd bs rord cord o (nbrows M) O1 O2 Ho' M eq_refl Hw Hv)))|].
      intros M' (N & (H1 & H2 & H3 & H4 & H5) & Hm & _). split; [exact H1|]. split; [exact H3|]. split; [exact H2|]. split; [apply Hm|]. split; [apply Hm|]. split; [auto|]. split; [exact N|exact H5].
    - eapply nok_mono; [apply (nok_and _ _ _ Hnone (nok_and _ _ _ (C19_inverse F O bs M rord cord o HM Ho) (order_inv bs rord cord o (nbrows M) O1 O2 Ho' M eq_refl Hw Hv)))|].
      intros M' (N & (H1 & H2 & H3 & H4 & H5) & Hm & _). split; [exact H1|]. split; [exact H3|]. split; [exact H2|]. split; [apply Hm|]. split; [apply Hm|]. split; [auto|]. split; [exact N|].
      intros i j Hi Hj. simpl. destruct (oget_oback _ rord i O1 Hi) as [E1 L1]. destruct (oget_oback _ cord j O2 Hj) as [E2 L2].
      rewrite <- (H5 _ _ L1 L2), E1, E2. reflexivity.
  Qed.
  Definition factor_at (mode : RSApplyMode) (x : option (list nat)) (i : nat) : nat := match mode with FORWARD => moved mode x i | INVERSE => i end.
  Lemma reorder_ok bs mode rord cord o sc (M : srmat F) : mat_ok bs M -> with_ordering (nbrows M) rord cord o -> scaling_ok (nbrows M) sc ->
    nok (reorderScale bs o sc mode M) (fun M' => nbrows M' = nbrows M /\ mat_ok bs M' /\ nnz M' = nnz M /\ nnzb M' = nnzb M /\ diagind M' = diagind M /\
      (cord <> None \/ wf_sorted M -> wf_sorted M') /\ (rord = None -> cord = None -> browptr M' = browptr M /\ bcolind M' = bcolind M) /\
      forall i j, i < nbrows M -> j < nbrows M -> stored bs M' i j =
        option_map (map (fun x => scl mode (colscale sc) (factor_at mode cord j) (scl mode (rowscale sc) (factor_at mode rord i) x))) (stored bs M (moved mode rord i) (moved mode cord j))).
  Proof.
    intros HM Ho Hsc. pose proof HM as (Hw & Hnd & Hv).
    assert (forall M M1 : srmat F, mat_ok bs M -> M1 = with_arrays M (browptr M) (bcolind M) (vals M1) -> length (vals M1) = length (vals M) -> mat_ok bs M1) as Hok.
    { clear. intros M M1 HM E1 E2. rewrite E1. destruct HM as ([W1 W2 W3 W4 W5] & Hn2 & Hv2). split; [split; auto|]. split; [exact Hn2|]. simpl. rewrite E2. exact Hv2. }
    destruct mode; unfold reorderScale.
    - eapply nok_bind; [apply (C21_matrix F O bs M sc FORWARD HM Hsc)|]. intros M1 (E1 & E2 & E3). pose proof (Hok M M1 HM E1 E2) as HM1.
      assert (nbrows M1 = nbrows M) as En by (rewrite E1; reflexivity). rewrite <- En in Ho.
      eapply nok_mono; [apply (order_ok bs FORWARD rord cord o M1 HM1 Ho)|]. rewrite En in *. intros M' (H1 & H2 & H3 & H4 & H5 & H6 & H7 & H8).
      split; [exact H1|]. split; [exact H2|]. split; [rewrite H3, E1; reflexivity|]. split; [rewrite H4, E1; reflexivity|]. split; [rewrite H5, E1; reflexivity|].
      split; [intros [Hso|Hso]; apply H6; [left; exact Hso|right; rewrite E1; exact Hso]|]. split; [intros N1 N2; rewrite (H7 N1 N2), E1; auto|].
      intros i j Hi Hj. rewrite H8 by assumption. pose proof Ho as (O1 & O2 & _).
      rewrite E3; [reflexivity| |]; [apply (moved_lt (nbrows M) FORWARD rord i O1 Hi)|apply (moved_lt (nbrows M) FORWARD cord j O2 Hj)].
    - eapply nok_bind; [apply (order_ok bs INVERSE rord cord o M HM Ho)|]. intros M1 (H1 & H2 & H3 & H4 & H5 & H6 & H7 & H8).
      rewrite <- H1 in Hsc. eapply nok_mono; [apply (C21_matrix F O bs M1 sc INVERSE H2 Hsc)|]. rewrite H1 in *. intros M' (E1 & E2 & E3). pose proof (Hok M1 M' H2 E1 E2) as HM'.
      split; [rewrite E1; exact H1|]. split; [exact HM'|]. split; [rewrite E1; exact H3|]. split; [rewrite E1; exact H4|]. split; [rewrite E1; exact H5|].
      split; [intros Hso; rewrite E1; apply H6, Hso|]. split; [intros N1 N2; rewrite E1; simpl; rewrite (H7 N1 N2); auto|].
      intros i j Hi Hj. rewrite E3 by assumption. rewrite H8 by assumption. reflexivity.
  Qed.
  Lemma step_reorder cl rord cord sc mode (a : amat F) M : 0 < width cl -> refines cl a M -> legal cl (MReorderScale rord cord sc mode) a ->
    nok (mstep cl (MReorderScale rord cord sc mode) M) (refines cl (astep cl (MReorderScale rord cord sc mode) a)).
  Proof.
    intros Hbs [Hs Hn] (O1 & O2 & S1 & S2). pose proof (sh_rows _ a M Hs) as En. rewrite <- En in O1, O2, S1, S2.
    destruct (C18_set_ordering (nbrows M) rord cord O1 O2) as (o & Ho). pose proof Ho as (_ & _ & Eo). unfold mstep. rewrite Eo. set (bs := width cl) in *.
    apply nok_bind with (P := fun o' => o' = o); [apply nok_lift; reflexivity|]. intros ? ->.
    assert (mat_ok bs M) as HM by (split; [apply Hs|split; apply Hs]).
    eapply nok_bind; [apply (reorder_ok bs mode rord cord o sc M HM Ho (conj S1 S2))|]. intros M' (H1 & (Hw & Hnd & Hv) & H3 & H4 & H5 & H6 & H7 & H8). apply nok_ret.
    split; [constructor|].
    - simpl. congruence.
    - destruct Hw. split; auto.
    - split; simpl; [rewrite drop_length, (wf_len M' Hw); lia|]. intros i Hi. rewrite lookup_drop. unfold rp. simpl. rewrite (Nat.add_comm i). apply list_lookup_lookup_total_lt. rewrite (wf_len M' Hw). lia.
    - exact Hv.
    - change (nnzb M' = nnz M'). rewrite H4, H3. apply Hs.
    - simpl. rewrite H5, H1. apply Hs.
    - exact Hnd.
    - intros Ecl. apply H6. right. apply (sh_sorted _ a M Hs Ecl).
    - intros i j Hi Hj. cbn [a_rows a_stored astep] in *. rewrite <- En in Hi, Hj. change (pos (alias_end M') i j) with (pos M' i j). rewrite <- (stored_pos bs), H8 by assumption.
      change (a_stored a (moved mode rord i) (moved mode cord j) = true) with (a_stored a (moved mode rord i) (moved mode cord j) = true).
      rewrite <- (sh_stored _ a M Hs) by (rewrite <- En; apply moved_lt; assumption). rewrite <- (stored_pos bs).
      destruct (stored bs M _ _); simpl; split; congruence.
    - cbn [a_diag astep]. intros Hd. apply andb_true_iff in Hd as [Hd Hno]. destruct rord; [discriminate|]. destruct cord; [discriminate|].
      destruct (H7 eq_refl eq_refl) as [E1 E2]. destruct (sh_diag _ a M Hs Hd) as [D1 D2]. split; simpl; [rewrite H5, H1; exact D1|].
      intros i Hi. rewrite H1 in Hi. specialize (D2 i Hi). unfold rp, col, dg in *. simpl. rewrite E1, E2, H5. exact D2.
    - intros I J x HI HJ Hst Hx. cbn [a_rows a_stored a_num astep] in *. fold bs in HI, HJ, Hst, Hx |- *.
      change (bdense RowMajor bs (alias_end M') I J) with (bdense RowMajor bs M' I J). rewrite <- En in HI, HJ.
      assert (I / bs < nbrows M) as Hi by (apply Nat.div_lt_upper_bound; lia). assert (J / bs < nbrows M) as Hj by (apply Nat.div_lt_upper_bound; lia).
      pose proof (Nat.mod_upper_bound I bs ltac:(lia)) as Hp. pose proof (Nat.mod_upper_bound J bs ltac:(lia)) as Hq.
      pose proof (moved_lt _ mode rord _ O1 Hi) as Li. pose proof (moved_lt _ mode cord _ O2 Hj) as Lj.
      change (a_stored a (moved mode rord (I / bs)) (moved mode cord (J / bs)) = true) in Hst.
      change ((fun x => scl mode (colscale sc) (factor_at mode cord (J / bs)) (scl mode (rowscale sc) (factor_at mode rord (I / bs)) x)) <$>
        a_num a (moved mode rord (I / bs) * bs + I mod bs) (moved mode cord (J / bs) * bs + J mod bs) = Some x) in Hx.
      destruct (a_num a _ _) as [x0|] eqn:E0; [|discriminate]. injection Hx as <-.
      assert (bdense RowMajor bs M' I J = bdense RowMajor bs M' (I / bs * bs + I mod bs) (J / bs * bs + J mod bs)) as ->.
      { f_equal; rewrite (Nat.mul_comm _ bs); apply Nat.div_mod; lia. }
      assert (stored bs M (moved mode rord (I / bs)) (moved mode cord (J / bs)) <> None) as Hne.
      { apply stored_pos. apply (sh_stored _ a M Hs); [rewrite <- En; assumption..|exact Hst]. }
      rewrite (entry_block bs M M' _ _ (moved mode rord (I / bs)) (moved mode cord (J / bs))
        (fun x => scl mode (colscale sc) (factor_at mode cord (J / bs)) (scl mode (rowscale sc) (factor_at mode rord (I / bs)) x)) (I mod bs) (J mod bs)); auto; [|apply Hs|apply Hs].
      do 2 f_equal. apply (Hn (moved mode rord (I / bs) * bs + I mod bs) (moved mode cord (J / bs) * bs + J mod bs)); rewrite <- ?En; fold bs.
      + nia.
      + nia.
      + rewrite !flat_div by lia. exact Hst.
      + exact E0.
  Qed.
End Reordering.

(** ** C80 *)
(** the object is the matrix *)
Definition represents {F} {O : SOps F} (cl : option nat) (a : amat F) (M : srmat F) : Prop :=
  nbrows M = a_rows a /\
  (forall i j, i < a_rows a -> j < a_rows a -> pos M i j <> None <-> a_stored a i j = true) /\
  (forall I J x, I < a_rows a * width cl -> J < a_rows a * width cl -> entry_of cl a I J = Some x -> bdense RowMajor (width cl) M I J = x).

Section C80.
  Context {F : Type} {O : SOps F} {R : CRing F}.
  Lemma step_ok cl c (a : amat F) M : 0 < width cl -> refines cl a M -> legal cl c a -> nok (mstep cl c M) (refines cl (astep cl c a)).
  Proof.
    intros Hbs Hr Hl. destruct c.
    - apply step_structure; assumption.
    - apply step_zero; assumption.
    - apply step_diag; assumption.
    - apply step_scale; assumption.
    - apply step_submit; assumption.
    - apply step_assemble; assumption.
    - apply step_reorder; assumption.
    - apply step_copy; assumption.
  Qed.
  Lemma calls_ok cl h : 0 < width cl -> forall (a : amat F) M, refines cl a M -> legal_calls cl h a -> nok (mcalls cl h M) (refines cl (acalls cl h a)).
  Proof.
    intros Hbs. induction h as [|c h IH]; intros a M Hr Hl; simpl in *; [apply nok_ret, Hr|]. destruct Hl as [Hc Hl].
    eapply nok_bind; [apply (step_ok cl c a M Hbs Hr Hc)|]. intros M' Hr'. apply IH; assumption.
  Qed.
  Lemma history_ok cl h old : 0 < width cl -> legal_history cl h -> nok (mcalls cl h old) (refines cl (acalls cl h anew)).
  Proof.
    intros Hbs Hl. destruct h as [|[n bcinds brptrs| | | | | | |] h]; try (destruct Hl; fail). destruct Hl as [Hp Hl]. cbn [mcalls acalls].
    eapply nok_bind; [apply (step_structure cl Hbs n bcinds brptrs anew old Hp)|]. intros M Hr. apply calls_ok; assumption.
  Qed.
  (** Any history of allowed calls, on any object (new or used before), with any interleaving of the assembling threads and any order
      of the iterations of parallel loops, ends normally; the object is then the matrix that the calls describe. *)
  Theorem C80_history cl (h : list (mcall F)) old : 0 < width cl -> legal_history cl h ->
    nok (mcalls cl h old) (represents cl (acalls cl h anew)).
  Proof.
    intros Hbs Hl. eapply nok_mono; [apply (history_ok cl h old Hbs Hl)|]. intros M [Hs Hn]. split; [apply Hs|]. split; [apply Hs|].
    intros I J x HI HJ Hx. unfold entry_of in Hx. destruct (a_stored _ _ _) eqn:E; [apply (Hn I J x HI HJ E Hx)|]. injection Hx as <-.
    unfold bdense. destruct (pos M (I / width cl) (J / width cl)) as [p|] eqn:Ep; [|reflexivity]. exfalso.
    assert (pos M (I / width cl) (J / width cl) <> None) as Hne by congruence. apply (sh_stored _ _ _ Hs) in Hne; [congruence|apply div_lt; assumption..].
  Qed.
  Lemma refines_represents cl (a : amat F) M A : 0 < width cl -> refines cl a M -> is_matrix cl a A ->
    forall I J, I < nbrows M * width cl -> J < nbrows M * width cl -> bdense RowMajor (width cl) M I J = A I J.
  Proof.
    intros Hbs [Hs Hn] HA I J HI HJ. rewrite (sh_rows _ a M Hs) in HI, HJ. specialize (HA I J HI HJ). unfold entry_of in HA.
    destruct (a_stored _ _ _) eqn:E; [apply (Hn I J _ HI HJ E HA)|]. injection HA as <-.
    unfold bdense. destruct (pos M (I / width cl) (J / width cl)) as [p|] eqn:Ep; [|reflexivity]. exfalso.
    assert (pos M (I / width cl) (J / width cl) <> None) as Hne by congruence. apply (sh_stored _ _ _ Hs) in Hne; [congruence|apply div_lt; assumption..].
  Qed.
  (** ... products with it are products with that matrix *)
  Theorem C80_apply cl (h : list (mcall F)) old A x y : 0 < width cl -> legal_history cl h ->
    let a := acalls cl h anew in let N := a_rows a * width cl in
    is_matrix cl a A -> length x = N -> length y = N ->
    nok (ndo M := mcalls cl h old in mat_apply cl M x y) (fun y' => length y' = N /\ is_prod N A x y').
  Proof.
    intros Hbs Hl a N HA Hx Hy. eapply nok_bind; [apply (history_ok cl h old Hbs Hl)|]. fold a. intros M Hr. pose proof Hr as [Hs _].
    pose proof (sh_rows _ a M Hs) as En. pose proof (refines_represents cl a M A Hbs Hr HA) as HE. unfold N in *. rewrite <- En in Hx, Hy |- *.
    assert (nok (mat_apply cl M x y) (fun y' => length y' = nbrows M * width cl /\ is_prod (nbrows M * width cl) (bdense RowMajor (width cl) M) x y')) as H.
    { pose proof (sh_pat _ a M Hs) as Hw. pose proof (sh_nodup _ a M Hs) as Hnd. pose proof (sh_vals _ a M Hs) as Hv. destruct cl as [b|]; cbn [width mat_apply] in *.
      - apply C08_block_product; assumption.
      - rewrite Nat.mul_1_r in *. eapply nok_mono; [apply C08_scalar_product; assumption|]. intros y' [L Hp]. split; [exact L|]. intros i Hi. rewrite <- (Hp i Hi).
        apply bsum_ext. intros j Hj. rewrite bdense_1. reflexivity. }
    eapply nok_mono; [exact H|]. intros y' [L Hp]. split; [exact L|]. intros I HI. rewrite <- (Hp I HI). apply bsum_ext. intros J HJ. rewrite HE by assumption. reflexivity.
  Qed.
  Theorem C80_gemv3 cl (h : list (mcall F)) old A al x be y z : 0 < width cl -> legal_history cl h ->
    let a := acalls cl h anew in let N := a_rows a * width cl in
    is_matrix cl a A -> length x = N -> length z = N ->
    (** y may be the same array as z: None *)
    let yy := match y with Some y => y | None => z end in length yy = N ->
    nok (ndo M := mcalls cl h old in mat_gemv3 cl M al x be y z) (fun z' => length z' = N /\
      forall I, I < N -> vat z' I = (al * bsum N (fun J => A I J * vat x J) + be * vat yy I)%s).
  Proof.
    intros Hbs Hl a N HA Hx Hz yy Hy. eapply nok_bind; [apply (history_ok cl h old Hbs Hl)|]. fold a. intros M Hr. pose proof Hr as [Hs _].
    pose proof (sh_rows _ a M Hs) as En. pose proof (refines_represents cl a M A Hbs Hr HA) as HE. unfold N in *. rewrite <- En in Hx, Hy, Hz |- *.
    assert (nok (mat_gemv3 cl M al x be y z) (fun z' => length z' = nbrows M * width cl /\ forall I, I < nbrows M * width cl ->
      vat z' I = (al * bsum (nbrows M * width cl) (fun J => bdense RowMajor (width cl) M I J * vat x J) + be * vat yy I)%s)) as H.
    { pose proof (sh_pat _ a M Hs) as Hw. pose proof (sh_nodup _ a M Hs) as Hnd. pose proof (sh_vals _ a M Hs) as Hv. destruct cl as [b|]; cbn [width mat_gemv3] in *.
      - apply C09_block_gemv3; assumption.
      - rewrite Nat.mul_1_r in *. eapply nok_mono; [apply (C09_scalar_gemv3 F O R M al x be y z); assumption|]. intros z' [L Hp]. split; [exact L|]. intros i Hi. rewrite (Hp i Hi).
        f_equal. f_equal. apply bsum_ext. intros j Hj. rewrite bdense_1. reflexivity. }
    eapply nok_mono; [exact H|]. intros z' [L Hp]. split; [exact L|]. intros I HI. rewrite (Hp I HI). f_equal. f_equal. apply bsum_ext. intros J HJ. rewrite HE by assumption. reflexivity.
  Qed.
  (** the scalar class's queries about the diagonal, while its positions are known; [sabs], [slt]: magnitude and comparison *)
  Theorem C80_diagonal sabs slt thr (h : list (mcall F)) old A : legal_history None h ->
    let a := acalls None h anew in is_matrix None a A -> a_diag a = true ->
    let d := (fun i => A i i) <$> seq 0 (a_rows a) in
    nok (mcalls None h old) (fun M =>
      getDiagonalProduct M = Ok (foldl (fun p x => (p * x)%s) s1 d) /\
      getDiagonalAbsSum sabs M = Ok (foldl (fun p x => (p + sabs x)%s) s0 d) /\
      getNumZeroDiagonals sabs slt thr M = Ok (length (filter (fun x => slt (sabs x) thr = true) d))).
  Proof.
    intros Hl a HA Hd d. eapply nok_mono; [apply (history_ok None h old ltac:(simpl; lia) Hl)|]. fold a. intros M Hr. pose proof Hr as [Hs _].
    pose proof (sh_rows _ a M Hs) as En. pose proof (refines_represents None a M A ltac:(simpl; lia) Hr HA) as HE. cbn [width] in HE. rewrite Nat.mul_1_r in HE.
    assert (diagonal M = d) as Ed.
    { unfold diagonal, d. rewrite En. apply list_fmap_ext. intros i x Hi. apply lookup_seq in Hi as [-> Hi]. rewrite <- (HE _ _) by (rewrite En; lia). rewrite bdense_1. reflexivity. }
    rewrite <- Ed. pose proof (sh_pat _ a M Hs) as Hw. pose proof (sh_nodup _ a M Hs) as Hnd. pose proof (sh_vals _ a M Hs) as Hv. pose proof (sh_diag _ a M Hs Hd) as Hdg.
    split; [apply C17_product; assumption|]. split; [apply C17_abs_sum; assumption|apply C17_zero_count; assumption].
  Qed.
End C80.

(** ** Cases *)
(** blocks of size two: pattern, zero, values from a submitted block and from two threads, a scaling, a swap of the unknowns with
    factors, a copy, and a last block *)
Definition histB : list (mcall Qc) :=
  [ MSetStructure 2 [1; 0; 1] [0; 2; 3]; MSetAllZero; MSubmitBlock 0 0 (q <$> [1; 2; 3; 4]%Z) 2 2;
    MAssemble [[Update 0 2 (q <$> [1; 1; 1; 1]%Z) 2 2; UpdateDiag 2 (q <$> [5; 0; 0; 5]%Z) 2]; [Update 1 3 (q <$> [1; 0; 0; 2]%Z) 2 2; Update 3 0 (q <$> [9; 9; 9; 9]%Z) 2 2]];
    MScaleAll (q 2); MReorderScale (Some [1; 0]) (Some [1; 0]) (Scaling (q <$> [1; 3]%Z) []) FORWARD; MCopy;
    MAssemble [[Update 2 2 (q <$> [1; 0; 0; 1]%Z) 2 2]] ].
Definition known {F} {O : SOps F} (cl : option nat) (a : amat F) (I J : nat) : F := default s0 (entry_of cl a I J).
Lemma histB_legal : legal_history (Some 2) histB.
Proof.
  unfold legal_history, histB. cbn [legal_calls].
  split. { split; simpl; try lia. - intros i Hi; do 2 (destruct i as [|i]; [simpl; lia|]); lia. - intros j Hj; do 3 (destruct j as [|j]; [simpl; lia|]); lia.
    - intros i j1 j2 Hi H1 H2 H3. destruct i as [|[|]]; simpl in *; [|lia..]. assert (j1 = 0) as -> by lia. assert (j2 = 1) as -> by lia. simpl. lia. }
  split; [exact Logic.I|]. split; [simpl; lia|].
  split. { intros c Hc. simpl in Hc. repeat (apply elem_of_cons in Hc as [-> |Hc]; [|]); try (apply elem_of_nil in Hc as []); simpl; repeat split; lia. }
  split; [exact Logic.I|]. split. { split; [apply perm_swap|]. split; [apply perm_swap|]. split; [right; reflexivity|left; reflexivity]. }
  split; [exact Logic.I|]. split; [|exact Logic.I]. intros c Hc. simpl in Hc. apply elem_of_list_singleton in Hc as ->. simpl. lia.
Qed.
Lemma histB_matrix : is_matrix (Some 2) (acalls (Some 2) histB anew) (known (Some 2) (acalls (Some 2) histB anew)).
Proof.
  intros I J HI HJ. change (I < 4) in HI. change (J < 4) in HJ. unfold known.
  destruct (entry_of (Some 2) (acalls (Some 2) histB anew) I J) eqn:E; [reflexivity|exfalso].
  do 4 (destruct I as [|I]; [do 4 (destruct J as [|J]; [vm_compute in E; discriminate E|]); lia|]); lia.
Qed.
Example C80_case : legal_history (Some 2) histB /\
  nok (ndo M := mcalls (Some 2) histB sr_null in mat_apply (Some 2) M (q <$> [1; 2; 3; 4]%Z) (q <$> [9; 9; 9; 9]%Z))
    (fun y => y = q <$> [30; 60; 33; 68]%Z).
Proof.
  split; [exact histB_legal|].
  eapply nok_mono; [apply (C80_apply (Some 2) histB sr_null (known (Some 2) (acalls (Some 2) histB anew)) (q <$> [1; 2; 3; 4]%Z) (q <$> [9; 9; 9; 9]%Z)); [simpl; lia|exact histB_legal|exact histB_matrix|reflexivity|reflexivity]|].
  change (a_rows (acalls (Some 2) histB anew) * width (Some 2)) with 4. intros y [L Hp].
  pose proof (Hp 0 ltac:(lia)) as H0. pose proof (Hp 1 ltac:(lia)) as H1. pose proof (Hp 2 ltac:(lia)) as H2. pose proof (Hp 3 ltac:(lia)) as H3.
  destruct y as [|y0 [|y1 [|y2 [|y3 [|]]]]]; try discriminate L.
  change (vat [y0; y1; y2; y3] 0) with y0 in H0. change (vat [y0; y1; y2; y3] 1) with y1 in H1. change (vat [y0; y1; y2; y3] 2) with y2 in H2. change (vat [y0; y1; y2; y3] 3) with y3 in H3.
  subst. repeat (apply (f_equal2 cons)); try reflexivity; apply Qc_is_canon; vm_compute; reflexivity.
Qed.
(** the scalar class: rectangles, increasing columns; the diagonal *)
Definition histS : list (mcall Qc) :=
  [ MSetStructure 3 (bcolind exM) (browptr exM); MSubmitBlock 0 0 (q <$> [4; 1; 2; 5]%Z) 2 2; MSubmitBlock 1 2 (q <$> [1]%Z) 1 1; MSubmitBlock 2 1 (q <$> [1; 3]%Z) 1 2 ].
Definition swap01 : mcall Qc := MReorderScale (Some [1; 0; 2]) (Some [1; 0; 2]) (Scaling [] []) FORWARD.
Lemma histS_legal : legal_history None (histS ++ [swap01]).
Proof.
  unfold legal_history, histS. cbn [app legal_calls].
  split. { split; simpl; try lia. - intros i Hi; do 3 (destruct i as [|i]; [simpl; lia|]); lia. - intros j Hj; do 7 (destruct j as [|j]; [simpl; lia|]); lia.
    - intros i j1 j2 Hi H1 H2 H3. do 3 (destruct i as [|i]; [simpl in H1, H3; do 7 (destruct j1 as [|j1]; [do 7 (destruct j2 as [|j2]; [simpl; lia|]); lia|]); lia|]); lia. }
  assert (forall (a : amat Qc) i j h w, a_rows a = 3 -> i + h <= 3 -> j + w <= 3 -> forallb (fun I => forallb (fun J => a_stored a I J) (seq j w)) (seq i h) = true -> rect_in a i j h w) as Hr.
  { intros a i j h w Ha Hi Hj H. split; [lia|]. split; [lia|]. intros I J [HI HJ]. rewrite forallb_forall in H. specialize (H I ltac:(apply in_seq; lia)).
    rewrite forallb_forall in H. apply H. apply in_seq; lia. }
  split. { split; [apply Hr; [reflexivity|lia|lia|reflexivity]|simpl; lia]. }
  split. { split; [apply Hr; [reflexivity|lia|lia|reflexivity]|simpl; lia]. }
  split. { split; [apply Hr; [reflexivity|lia|lia|reflexivity]|simpl; lia]. }
  split; [|exact Logic.I]. split; [exact perm102|]. split; [exact perm102|]. split; left; reflexivity.
Qed.
Lemma legal_app cl (h h' : list (mcall Qc)) : forall a, legal_calls cl (h ++ h') a -> legal_calls cl h a.
Proof. induction h as [|c h IH]; intros a; simpl; [auto|]. intros [H1 H2]. split; [exact H1|apply IH, H2]. Qed.
Example C80_diagonal_case : legal_history None histS /\ a_diag (acalls None histS anew) = true /\
  is_matrix None (acalls None histS anew) (known None (acalls None histS anew)) /\
  nok (mcalls None histS sr_null) (fun M => getDiagonalProduct M = Ok (q 60)).
Proof.
  assert (legal_history None histS) as Hl by exact (legal_app None histS [swap01] anew histS_legal).
  assert (is_matrix None (acalls None histS anew) (known None (acalls None histS anew))) as HA.
  { intros I J HI HJ. change (I < 3) in HI. change (J < 3) in HJ. unfold known. destruct (entry_of None (acalls None histS anew) I J) eqn:E; [reflexivity|exfalso].
    do 3 (destruct I as [|I]; [do 3 (destruct J as [|J]; [vm_compute in E; discriminate E|]); lia|]); lia. }
  split; [exact Hl|]. split; [reflexivity|]. split; [exact HA|].
  eapply nok_mono; [apply (C80_diagonal id (fun _ _ => true) (q 0) histS sr_null _ Hl HA eq_refl)|]. intros M (E & _). rewrite E. apply (f_equal Ok). apply Qc_is_canon. vm_compute. reflexivity.
Qed.

(** After a reordering the object does not know its diagonal any more: setDiagZero leaves it other than zero. *)
Theorem C80_diagonal_after_reordering_refuted : legal_history None (histS ++ [swap01]) /\
  exists M, mcalls None (histS ++ [swap01; MSetDiagZero]) sr_null (Ok M) /\ dense M 1 1 <> q 0.
Proof.
  split; [exact histS_legal|]. eexists. split.
  - unfold histS. cbn [app mcalls mstep width].
    eexists (Ok _). split; [exists (fun _ => 0), (fun _ => 0), (fun _ => 0), (fun _ => q 0); vm_compute; reflexivity|].
    eexists (Ok _). split; [vm_compute; reflexivity|].
    eexists (Ok _). split; [vm_compute; reflexivity|].
    eexists (Ok _). split; [vm_compute; reflexivity|].
    eexists (Ok _). split.
    { eexists (Ok _). split; [vm_compute; reflexivity|]. eexists (Ok _). split; [|unfold nret, nlift; reflexivity]. unfold reorderScale, applyScaling_mat. cbn [rowscale colscale swap01 length Nat.ltb Nat.leb].
      eexists (Ok _). split. { eexists (Ok _). split; [unfold nret, nlift; reflexivity|]. eexists (Ok _). split; [unfold nret, nlift; reflexivity|]. unfold nret, nlift; reflexivity. }
      eexists (Ok _). split; [vm_compute; reflexivity|]. eexists (Ok _). split; [exists [0; 1; 2]; split; [reflexivity|]; vm_compute; reflexivity|]. unfold nret, nlift; reflexivity. }
    eexists (Ok _). split; [|unfold nret, nlift; reflexivity]. eexists (Ok _). split; [exists [0; 1; 2]; split; [reflexivity|]; vm_compute; reflexivity|]. unfold nret, nlift; reflexivity.
  - vm_compute. discriminate.
Qed.

Print Assumptions C80_history.
Print Assumptions C80_apply.
Print Assumptions C80_gemv3.
Print Assumptions C80_diagonal.
Print Assumptions C80_diagonal_after_reordering_refuted.
