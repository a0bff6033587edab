(** * PropPoisson (C105, C106): the finite-difference test problem *)
From Coq Require Import ZArith QArith.Qcanon.
From Verif Require Import Base Alg SymSpec Poisson PoissonSpec PoissonFacts Inst PropLinearEx.
Open Scope nat_scope.

Section Prop105.
  Context {F : Type} {O : SOps F} {FL : Field F}.
  Add Ring Fr : (@cring F O field_ring).
  Open Scope s_scope.
  Variable pos : F -> Prop.
  Hypothesis Hpos : ordered pos.

  Definition good_mesh (m : mesh F) : Prop := increasing pos (cx m) /\ increasing pos (cy m) /\ increasing pos (cz m).

  Lemma gap x i : increasing pos x -> (-1 <= i /\ i + 2 < Z.of_nat (length x))%Z -> pos (place x (i + 1) - place x i).
  Proof.
    intros Hx H. unfold place. replace (Z.to_nat (i + 1 + 1)) with (Z.to_nat (i + 1) + 1)%nat by lia. apply Hx. lia.
  Qed.
  Lemma gap_lo x i : increasing pos x -> on_axis x i -> pos (place x i - place x (i - 1)).
  Proof. intros Hx [H1 H2]. replace (place x i) with (place x (i - 1 + 1)) by (f_equal; lia). apply gap; [done|lia]. Qed.
  Lemma gap_hi x i : increasing pos x -> on_axis x i -> pos (place x (i + 1) - place x i).
  Proof. intros Hx [H1 H2]. apply gap; [done|lia]. Qed.

  Lemma row_sum_laplacian m u p : good_mesh m -> grid m p -> row_sum m u p = minus_laplacian m u p.
  Proof.
    intros (Gx & Gy & Gz) Hp. destruct p as [[k j] i]. destruct Hp as (Hk & Hj & Hi). unfold row_sum, minus_laplacian.
    rewrite !(lowv_eq pos Hpos), !(upv_eq pos Hpos), !(midv_eq pos Hpos), !(diff_eq pos Hpos) by (first [apply gap_lo|apply gap_hi]; assumption). ring.
  Qed.

  (** On any number of processes owning disjoint boxes that cover the interior points, computeLHS stays within the coordinate
      arrays and the processes together insert every entry once; the matrix is minus the discrete Laplacian. *)
  Theorem C105_matrix m bs : good_mesh m -> partition m bs ->
    ok (mapr (computeLHS m) bs) (fun parts => let E := concat parts in
      (forall u p, grid m p -> row_apply E u p = minus_laplacian m u p) /\
      NoDup (fst <$> E) /\ (forall r c v, (r, c, v) ∈ E -> grid m r)).
  Proof.
    intros Hm Hb. rewrite all_ok by apply Hb. cbv zeta. simpl. rewrite concat_rows. destruct (partition_pts m bs Hb) as [Hn He]. split; [|split].
    - intros u p Hp. rewrite rows_apply; [apply row_sum_laplacian; done|done|]. apply He, Hp.
    - apply rows_NoDup, Hn.
    - intros r c v (p & Hp & HP)%elem_of_list_bind. apply row_row in Hp. subst r. apply He, HP.
  Qed.

  (** Every row has positive diagonal entry and negative off-diagonal entries. *)
  Theorem C105_signs m bs : good_mesh m -> partition m bs ->
    ok (mapr (computeLHS m) bs) (fun parts => forall r c v, (r, c, v) ∈ concat parts -> if decide (c = r) then pos v else pos (sopp v)).
  Proof.
    intros (Gx & Gy & Gz) Hb. rewrite all_ok by apply Hb. simpl. rewrite concat_rows. destruct (partition_pts m bs Hb) as [Hn He].
    intros r c v (p & Hp & HP)%elem_of_list_bind. apply He in HP. destruct p as [[k j] i]. destruct HP as (Hk & Hj & Hi). unfold row in Hp.
    pose proof (fun x i' H1 H2 => p_wlow pos Hpos x i' (gap_lo x i' H1 H2) (gap_hi x i' H1 H2)) as PL.
    pose proof (fun x i' H1 H2 => p_wup pos Hpos x i' (gap_lo x i' H1 H2) (gap_hi x i' H1 H2)) as PU.
    assert (forall a : F, sopp (sopp a) = a) as OO by (intros; ring).
    repeat (apply elem_of_cons in Hp; destruct Hp as [Hp|Hp]; [injection Hp as -> -> ->;
      first [rewrite decide_False by (intros EE; injection EE; lia)|rewrite decide_True by reflexivity];
      rewrite ?(lowv_eq pos Hpos), ?(upv_eq pos Hpos), ?(midv_eq pos Hpos), ?OO by (first [apply gap_lo|apply gap_hi]; assumption);
      repeat apply (pos_add _ Hpos); first [apply PL|apply PU]; assumption|]).
    apply elem_of_nil in Hp. destruct Hp.
  Qed.

  (** Consistency: applied to the values at the mesh points of a sum of quadratic functions of x, y and z, every row gives
      exactly minus the Laplacian of that function. *)
  Theorem C105_consistent m bs ax bx_ cx_ ay by' cy_ az bz' cz_ : good_mesh m -> partition m bs ->
    let f a b c t := a + b * t + c * t * t in
    let u (p : pnt) := match p with (k, j, i) => f ax bx_ cx_ (place (cx m) i) + f ay by' cy_ (place (cy m) j) + f az bz' cz_ (place (cz m) k) end in
    ok (mapr (computeLHS m) bs) (fun parts => forall p, grid m p ->
      row_apply (concat parts) u p = sopp (two * cx_ + two * cy_ + two * cz_)).
  Proof.
    intros Hm Hb f u. eapply ok_mono; [apply (C105_matrix m bs Hm Hb)|]. cbv zeta. intros parts (H & _) p Hp. rewrite H by done.
    destruct Hm as (Gx & Gy & Gz). destruct p as [[k j] i]. destruct Hp as (Hk & Hj & Hi). unfold minus_laplacian, u.
    rewrite <- (diff_quadratic pos Hpos (cx m) i (gap_lo _ _ Gx Hi) (gap_hi _ _ Gx Hi) ax bx_ cx_).
    rewrite <- (diff_quadratic pos Hpos (cy m) j (gap_lo _ _ Gy Hj) (gap_hi _ _ Gy Hj) ay by' cy_).
    rewrite <- (diff_quadratic pos Hpos (cz m) k (gap_lo _ _ Gz Hk) (gap_hi _ _ Gz Hk) az bz' cz_).
    cbv zeta. rewrite !(diff_eq pos Hpos) by (first [apply gap_lo|apply gap_hi]; assumption). unfold f. ring.
  Qed.

  (** computeRHS stays within the arrays and stores exactly one value per owned point. *)
  Definition waves (wave : F -> F) (x y z : F) : F := wave x * wave y * wave z.
  Theorem C105_rhs wave amp m b : box_fits m b ->
    ok (computeRHS wave amp m b) (fun l => NoDup ((fun e => fst (fst e)) <$> l) /\
      (forall p, in_box b p <-> exists f u, (p, f, u) ∈ l) /\
      forall k j i f u, ((k, j, i), f, u) ∈ l -> f = amp * u /\ u = waves wave (place (cx m) (i - 1)) (place (cy m) (j - 1)) (place (cz m) (k - 1))).
  Proof.
    intros H. unfold computeRHS.
    pose (g := (fun p : pnt => match p with (k, j, i) =>
      [((k, j, i), amp * wave (vat (cx m) (Z.to_nat i)) * wave (vat (cy m) (Z.to_nat j)) * wave (vat (cz m) (Z.to_nat k)),
        wave (vat (cx m) (Z.to_nat i)) * wave (vat (cy m) (Z.to_nat j)) * wave (vat (cz m) (Z.to_nat k)))] end) : pnt -> list (pnt * F * F)).
    rewrite (for_box_app b _ g).
    - apply ok_ret. assert (forall p f u, (p, f, u) ∈ pts b ≫= g -> in_box b p /\ f = amp * u /\ match p with (k, j, i) => u = waves wave (place (cx m) (i - 1)) (place (cy m) (j - 1)) (place (cz m) (k - 1)) end) as A.
      { intros p f u (q & Hq & Hqb)%elem_of_list_bind. destruct q as [[k j] i]. unfold g in Hq. apply elem_of_list_singleton in Hq. injection Hq as -> -> ->.
        split; [apply elem_of_pts, Hqb|]. split; [ring|]. unfold waves, place. rewrite !Z.sub_add. reflexivity. }
      split; [|split].
      + assert ((fun e : pnt * F * F => fst (fst e)) <$> (pts b ≫= g) = pts b) as ->; [|apply NoDup_pts].
        generalize (pts b). intros l. induction l as [|[[k j] i] l IH]; [reflexivity|]. rewrite bind_cons, fmap_app, IH. reflexivity.
      + intros p. split.
        * intros Hp. apply elem_of_pts in Hp. destruct p as [[k j] i]. eexists _, _. apply elem_of_list_bind. exists (k, j, i). split; [|exact Hp].
          unfold g. apply elem_of_list_singleton. reflexivity.
        * intros (f & u & Hf). apply (A p f u Hf).
      + intros k j i f u Hf. apply (A (k, j, i) f u Hf).
    - intros k j i a Hb. destruct (H _ Hb) as ([? ?] & [? ?] & [? ?]). cbv zeta. rewrite !gcoords_ok by lia. reflexivity.
  Qed.

  (** ... but it takes the coordinates of point i instead of i + 1: with a wave that vanishes on the boundary x = x_0 (as
      sin(2 pi x) does at 0), the "exact solution" is stored as zero in the first layer of interior points, where the wave
      does not vanish. *)
  Theorem C105_rhs_refuted wave amp m b k j : box_fits m b -> in_box b (k, j, 0%Z) ->
    wave (vat (cx m) 0) = s0 -> waves wave (place (cx m) 0) (place (cy m) j) (place (cz m) k) <> s0 ->
    ok (computeRHS wave amp m b) (fun l => exists f u, ((k, j, 0%Z), f, u) ∈ l /\ u = s0 /\ f = s0 /\
      u <> waves wave (place (cx m) 0) (place (cy m) j) (place (cz m) k)).
  Proof.
    intros Hf Hb Hw Hn. eapply ok_mono; [apply C105_rhs, Hf|]. cbv beta. intros l (_ & Hl & Hv). destruct (proj1 (Hl _) Hb) as (f & u & Hfu).
    destruct (Hv _ _ _ _ _ Hfu) as [E1 E2]. assert (u = s0) as E3.
    { rewrite E2. unfold waves, place at 1. change (Z.to_nat (0 - 1 + 1)) with 0%nat. rewrite Hw. ring. }
    exists f, u. repeat split; [exact Hfu|exact E3| |].
    - rewrite E1, E3. ring.
    - rewrite E3. intros E. apply Hn. symmetry. exact E.
  Qed.

  (** computeNorm reads before the beginning of a coordinate array on every process that owns a point with an index 0. *)
  Theorem C105_norm_refuted eighth m b v : (0 < nx b)%nat -> (0 < ny b)%nat -> (0 < nz b)%nat -> bx b = 0%nat \/ by_ b = 0%nat \/ bz b = 0%nat ->
    computeNorm eighth m b v = UB.
  Proof.
    intros H1 H2 H3 H0. unfold computeNorm, for_box, for_.
    replace (bz b + nz b - bz b)%nat with (S (nz b - 1)) by lia. cbn [for_n].
    replace (by_ b + ny b - by_ b)%nat with (S (ny b - 1)) by lia. cbn [for_n].
    replace (bx b + nx b - bx b)%nat with (S (nx b - 1)) by lia. cbn [for_n]. cbv zeta.
    assert (forall n, n = 0%nat -> forall x : list F, gcoords x (Z.of_nat n - 1) = UB) as U by (intros n ->; intros; apply gcoords_neg; lia).
    destruct (gcoords_cases (cx m) (Z.of_nat (bx b) + 1)) as [E|[a E]]; rewrite E; cbn [bind]; [reflexivity|].
    destruct H0 as [H0|H0]; [rewrite (U _ H0); reflexivity|].
    destruct (gcoords_cases (cx m) (Z.of_nat (bx b) - 1)) as [E1|[a1 E1]]; rewrite E1; cbn [bind]; [reflexivity|].
    destruct (gcoords_cases (cy m) (Z.of_nat (by_ b) + 1)) as [E2|[a2 E2]]; rewrite E2; cbn [bind]; [reflexivity|].
    destruct H0 as [H0|H0]; [rewrite (U _ H0); reflexivity|].
    destruct (gcoords_cases (cy m) (Z.of_nat (by_ b) - 1)) as [E3|[a3 E3]]; rewrite E3; cbn [bind]; [reflexivity|].
    destruct (gcoords_cases (cz m) (Z.of_nat (bz b) + 1)) as [E4|[a4 E4]]; rewrite E4; cbn [bind]; [reflexivity|].
    rewrite (U _ H0). reflexivity.
  Qed.

  (** ** C106: the system has a unique solution and is monotone *)
  Lemma argmin (u : pnt -> F) l : l <> [] -> exists p, p ∈ l /\ forall q, q ∈ l -> at_least_zero pos (u q - u p).
  Proof.
    induction l as [|a l IH]; [done|]. intros _. destruct l as [|b l].
    - exists a. split; [left|]. intros q Hq. apply elem_of_list_singleton in Hq. subst. left. ring.
    - destruct IH as (p & Hp & Hm); [done|]. destruct (pos_total _ Hpos (u a - u p)) as [H|[H|H]].
      + exists p. split; [right; done|]. intros q Hq. apply elem_of_cons in Hq. destruct Hq as [-> |Hq]; [left; exact H|auto].
      + exists p. split; [right; done|]. intros q Hq. apply elem_of_cons in Hq. destruct Hq as [-> |Hq]; [right; exact H|auto].
      + exists a. split; [left|]. intros q Hq. apply elem_of_cons in Hq. destruct Hq as [-> |Hq]; [left; ring|].
        right. replace (u q - u a) with (sopp (u a - u p) + (u q - u p)) by ring. destruct (Hm q Hq) as [E|E].
        * rewrite E. replace (sopp (u a - u p) + s0) with (sopp (u a - u p)) by ring. exact H.
        * apply (pos_add _ Hpos); done.
  Qed.
  Lemma nn_add a b : at_least_zero pos a -> at_least_zero pos b -> at_least_zero pos (a + b).
  Proof.
    intros [-> |Ha] [-> |Hb].
    - left. ring.
    - right. replace (s0 + b) with b by ring. exact Hb.
    - right. replace (a + s0) with a by ring. exact Ha.
    - right. apply (pos_add _ Hpos); done.
  Qed.
  Lemma nn_mul a b : pos a -> at_least_zero pos b -> at_least_zero pos (a * b).
  Proof. intros Ha [-> |Hb]; [left; ring|right; apply (pos_mul _ Hpos); done]. Qed.
  Lemma not_both a : at_least_zero pos a -> pos (sopp a) -> False.
  Proof.
    intros [-> |Ha] Hb; [replace (sopp s0) with (s0 : F) in Hb by ring; exact (pos_zero _ Hpos Hb)|].
    pose proof (pos_add _ Hpos _ _ Ha Hb) as P. replace (a + sopp a) with (s0 : F) in P by ring. exact (pos_zero _ Hpos P).
  Qed.

  Section Min.
    Variables (m : mesh F) (u : pnt -> F).
    Hypothesis Hm : good_mesh m.
    Hypothesis Hout : forall p, ~ grid m p -> u p = s0.
    Hypothesis Hsuper : forall p, grid m p -> at_least_zero pos (minus_laplacian m u p).
    Lemma grid_dec p : grid m p \/ ~ grid m p.
    Proof. destruct p as [[k j] i]. unfold grid, on_axis. lia. Qed.
    (** at a minimum the lower neighbour in x has the same value *)
    Lemma west k j i : grid m (k, j, i) -> (forall q, at_least_zero pos (u q - u (k, j, i))) -> u (k, j, i - 1)%Z = u (k, j, i).
    Proof.
      intros Hp Hall. pose proof (Hsuper _ Hp) as HS. destruct Hm as (Gx & Gy & Gz). pose proof Hp as (Hk & Hj & Hi). unfold minus_laplacian in HS.
      rewrite !(diff_eq pos Hpos) in HS by (first [apply gap_lo|apply gap_hi]; assumption).
      pose proof (fun x i' H1 H2 => p_wlow pos Hpos x i' (gap_lo x i' H1 H2) (gap_hi x i' H1 H2)) as PL.
      pose proof (fun x i' H1 H2 => p_wup pos Hpos x i' (gap_lo x i' H1 H2) (gap_hi x i' H1 H2)) as PU.
      destruct (Hall (k, j, i - 1)%Z) as [E|E].
      { transitivity (u (k, j, i - 1)%Z - u (k, j, i) + u (k, j, i)); [ring|]. rewrite E. ring. }
      exfalso. apply (not_both _ HS). set (c := u (k, j, i)) in *.
      pose proof (pos_mul _ Hpos _ _ (PL _ _ Gx Hi) E) as P.
      assert (at_least_zero pos (wup (cx m) i * (u (k, j, i + 1)%Z - c) + (wup (cy m) j * (u (k, j + 1, i)%Z - c) + (wlow (cy m) j * (u (k, j - 1, i)%Z - c)
        + (wup (cz m) k * (u (k + 1, j, i)%Z - c) + wlow (cz m) k * (u (k - 1, j, i)%Z - c)))))) as Q.
      { repeat apply nn_add; apply nn_mul; first [apply PL; assumption|apply PU; assumption|apply Hall]. }
      match goal with |- pos ?e => match type of P with pos ?a => match type of Q with at_least_zero pos ?r => replace e with (a + r) by ring; destruct Q as [Er|Er];
        [rewrite Er; replace (a + s0) with a by ring; exact P|apply (pos_add _ Hpos); done] end end end.
    Qed.
    Lemma no_negative_min n : forall k j i, i = Z.of_nat n -> grid m (k, j, i) ->
      (forall q, grid m q -> at_least_zero pos (u q - u (k, j, i))) -> pos (sopp (u (k, j, i))) -> False.
    Proof.
      induction n as [|n IH]; intros k j i Ei Hp Hmin Hneg.
      all: assert (u (k, j, i - 1)%Z = u (k, j, i)) as Ew
        by (apply west; [exact Hp|]; intros q; destruct (grid_dec q) as [Hq|Hq]; [apply Hmin, Hq|]; right; rewrite (Hout q Hq);
            replace (s0 - u (k, j, i)) with (sopp (u (k, j, i))) by ring; exact Hneg).
      - rewrite (Hout (k, j, i - 1)%Z) in Ew by (unfold grid, on_axis; lia). rewrite <- Ew in Hneg. apply (not_both s0); [left; reflexivity|exact Hneg].
      - apply (IH k j (i - 1)%Z); [lia| | |].
        + unfold grid, on_axis in *. lia.
        + intros q Hq. rewrite Ew. apply Hmin, Hq.
        + rewrite Ew. exact Hneg.
    Qed.
    Lemma nonnegative bs : partition m bs -> forall p, at_least_zero pos (u p).
    Proof.
      intros Hb p. destruct (grid_dec p) as [Hp|Hp]; [|left; apply Hout, Hp]. destruct (partition_pts m bs Hb) as [_ He].
      destruct (pos_total _ Hpos (u p)) as [H|[H|H]]; [left; exact H|right; exact H|]. exfalso.
      destruct (argmin u (bs ≫= pts)) as (q & Hq & Hmin).
      { intros E. apply He in Hp. rewrite E in Hp. apply elem_of_nil in Hp. exact Hp. }
      destruct q as [[k j] i]. assert (grid m (k, j, i)) as Hg by (apply He, Hq). pose proof Hg as (_ & _ & [Hi _]).
      apply (no_negative_min (Z.to_nat i) k j i); [lia|exact Hg|intros q' Hq'; apply Hmin, He, Hq'|].
      assert (at_least_zero pos (u p - u (k, j, i))) as H2 by (apply Hmin, He, Hp).
      replace (sopp (u (k, j, i))) with (sopp (u p) + (u p - u (k, j, i))) by ring. destruct H2 as [E|E].
      - rewrite E. replace (sopp (u p) + s0) with (sopp (u p)) by ring. exact H.
      - apply (pos_add _ Hpos); done.
    Qed.
  End Min.

  (** Discrete maximum principle: a grid function (zero outside of the interior points) that the assembled matrix maps to
      values >= 0 is >= 0 itself. *)
  Theorem C106_monotone m bs u : good_mesh m -> partition m bs -> (forall p, ~ grid m p -> u p = s0) ->
    ok (mapr (computeLHS m) bs) (fun parts =>
      (forall p, grid m p -> at_least_zero pos (row_apply (concat parts) u p)) -> forall p, at_least_zero pos (u p)).
  Proof.
    intros Hm Hb Hout. eapply ok_mono; [apply (C105_matrix m bs Hm Hb)|]. cbv zeta. intros parts (H & _) Hs. apply (nonnegative m u Hm Hout) with bs; [|exact Hb].
    intros p Hp. rewrite <- H by done. apply Hs, Hp.
  Qed.
  (** Hence two grid functions with the same image are equal: the matrix is nonsingular. *)
  Theorem C106_unique m bs u w : good_mesh m -> partition m bs -> (forall p, ~ grid m p -> u p = w p) ->
    ok (mapr (computeLHS m) bs) (fun parts =>
      (forall p, grid m p -> row_apply (concat parts) u p = row_apply (concat parts) w p) -> forall p, u p = w p).
  Proof.
    intros Hm Hb Hout. eapply ok_mono; [apply (C105_matrix m bs Hm Hb)|]. cbv zeta. intros parts (H & _) Hs p.
    assert (forall a b : pnt -> F, (forall q, ~ grid m q -> a q = b q) -> (forall q, grid m q -> minus_laplacian m a q = minus_laplacian m b q) -> at_least_zero pos (a p - b p)) as G.
    { intros a b Hab Hl. apply (nonnegative m (fun q => a q - b q) Hm) with bs; [intros q Hq; rewrite Hab by done; ring| |exact Hb].
      intros q Hq. left. pose proof (Hl q Hq) as E. destruct Hm as (Gx & Gy & Gz). destruct q as [[k j] i]. destruct Hq as (Hk & Hj & Hi). unfold minus_laplacian in *.
      rewrite !(diff_eq pos Hpos) in * by (first [apply gap_lo|apply gap_hi]; assumption).
      match type of E with ?l = ?r => transitivity (l - r); [ring|rewrite E; ring] end. }
    assert (forall q, grid m q -> minus_laplacian m u q = minus_laplacian m w q) as L by (intros q Hq; rewrite <- !H by done; apply Hs, Hq).
    pose proof (G u w Hout L) as G1. pose proof (G w u (fun q Hq => eq_sym (Hout q Hq)) (fun q Hq => eq_sym (L q Hq))) as G2.
    destruct G1 as [G1|G1]; [transitivity (u p - w p + w p); [ring|rewrite G1; ring]|]. exfalso. apply (not_both _ G2). replace (sopp (w p - u p)) with (u p - w p) by ring. exact G1.
  Qed.

  (** Multiplied by the volumes of the dual cells (up to the factor 1/8), the matrix is symmetric. *)
  Definition extent (x : list F) (i : Z) : F := place x (i + 1) - place x (i - 1).
  Definition volume (m : mesh F) (p : pnt) : F := match p with (k, j, i) => extent (cx m) i * extent (cy m) j * extent (cz m) k end.
  Lemma cross x i : increasing pos x -> on_axis x i -> on_axis x (i + 1) -> extent x i * upv x i = extent x (i + 1) * lowv x (i + 1).
  Proof.
    intros Hx H1 H2. rewrite (upv_eq pos Hpos), (lowv_eq pos Hpos) by (first [apply gap_lo|apply gap_hi]; assumption).
    unfold wup, wlow, extent. replace (i + 1 - 1)%Z with i by lia. pose proof (gap_lo x i Hx H1) as P1. pose proof (gap_hi x i Hx H1) as P2. pose proof (gap_hi x (i + 1) Hx H2) as P3.
    set (a := place x (i - 1)) in *. set (b := place x i) in *. set (c := place x (i + 1)) in *. set (d := place x (i + 1 + 1)) in *.
    transitivity (sopp (two * (s1 / (c - b)))).
    - transitivity (sopp (two * (s1 / (c - b))) * ((b - a + (c - b)) * (s1 / (b - a + (c - b))))); [ring|]. rewrite inv_r; [ring|]. apply (p_ne pos Hpos). apply (pos_add _ Hpos); done.
    - symmetry. transitivity (sopp (two * (s1 / (c - b))) * ((c - b + (d - c)) * (s1 / (c - b + (d - c))))); [ring|]. rewrite inv_r; [ring|]. apply (p_ne pos Hpos). apply (pos_add _ Hpos); done.
  Qed.
  Theorem C106_symmetric m bs : good_mesh m -> partition m bs ->
    ok (mapr (computeLHS m) bs) (fun parts => forall r c v, (r, c, v) ∈ concat parts -> grid m c ->
      exists v', (c, r, v') ∈ concat parts /\ volume m r * v = volume m c * v').
  Proof.
    intros (Gx & Gy & Gz) Hb. rewrite all_ok by apply Hb. simpl. rewrite concat_rows. destruct (partition_pts m bs Hb) as [Hn He].
    intros r c v (p & Hp & HP)%elem_of_list_bind Hc. apply He in HP. destruct p as [[k j] i].
    assert (forall v', (c, r, v') ∈ row m c -> (c, r, v') ∈ (bs ≫= pts) ≫= row m) as In.
    { intros v' Hv. apply elem_of_list_bind. exists c. split; [exact Hv|]. apply He, Hc. }
    unfold row in Hp. destruct HP as (Hk & Hj & Hi).
    repeat (apply elem_of_cons in Hp; destruct Hp as [Hp|Hp]; [injection Hp as -> -> ->|]); [..|apply elem_of_nil in Hp; destruct Hp];
      pose proof Hc as (Hk' & Hj' & Hi').
    - exists (upv (cz m) (k - 1)). split.
      + apply In. unfold row. rewrite Z.sub_add. do 6 right. left.
      + pose proof (cross (cz m) (k - 1) Gz Hk') as X. rewrite Z.sub_add in X. specialize (X Hk). unfold volume. 
        transitivity (extent (cx m) i * extent (cy m) j * (extent (cz m) k * lowv (cz m) k)); [ring|]. rewrite <- X. ring.
    - exists (upv (cy m) (j - 1)). split.
      + apply In. unfold row. rewrite Z.sub_add. do 5 right. left.
      + pose proof (cross (cy m) (j - 1) Gy Hj') as X. rewrite Z.sub_add in X. specialize (X Hj). unfold volume.
        transitivity (extent (cx m) i * extent (cz m) k * (extent (cy m) j * lowv (cy m) j)); [ring|]. rewrite <- X. ring.
    - exists (upv (cx m) (i - 1)). split.
      + apply In. unfold row. rewrite Z.sub_add. do 4 right. left.
      + pose proof (cross (cx m) (i - 1) Gx Hi') as X. rewrite Z.sub_add in X. specialize (X Hi). unfold volume.
        transitivity (extent (cy m) j * extent (cz m) k * (extent (cx m) i * lowv (cx m) i)); [ring|]. rewrite <- X. ring.
    - eexists. split; [|reflexivity]. apply In. unfold row. do 3 right. left.
    - exists (lowv (cx m) (i + 1)). split.
      + apply In. unfold row. rewrite Z.add_simpl_r. do 2 right. left.
      + unfold volume. transitivity (extent (cy m) j * extent (cz m) k * (extent (cx m) i * upv (cx m) i)); [ring|]. rewrite cross by done. ring.
    - exists (lowv (cy m) (j + 1)). split.
      + apply In. unfold row. rewrite Z.add_simpl_r. do 1 right. left.
      + unfold volume. transitivity (extent (cx m) i * extent (cz m) k * (extent (cy m) j * upv (cy m) j)); [ring|]. rewrite cross by done. ring.
    - exists (lowv (cz m) (k + 1)). split.
      + apply In. unfold row. rewrite Z.add_simpl_r. left.
      + unfold volume. transitivity (extent (cx m) i * extent (cy m) j * (extent (cz m) k * upv (cz m) k)); [ring|]. rewrite cross by done. ring.
  Qed.

  (** The uniform mesh with at least two points per axis is increasing and ends where it should. *)
  Theorem C105_uniform ofint rmin rmax np : (2 <= np)%nat -> pos (rmax - rmin) ->
    ofint 0%Z = s0 -> (forall z, ofint (z + 1)%Z = ofint z + s1) -> (forall z, (0 < z)%Z -> pos (ofint z)) ->
    let x := uniform_axis ofint rmin rmax np in
    length x = np /\ increasing pos x /\ vat x 0 = rmin /\ vat x (np - 1) = rmax.
  Proof.
    intros Hn Hr Z0 Z1 Zp x. assert (length x = np) as Hl by (unfold x, uniform_axis; rewrite fmap_length, seq_length; reflexivity).
    pose proof (Zp (Z.of_nat np - 1)%Z ltac:(lia)) as PN. pose proof (p_ne pos Hpos _ PN) as NZ.
    assert (forall i, (i < np)%nat -> vat x i = rmin + (rmax - rmin) * ofint (Z.of_nat i) * (s1 / ofint (Z.of_nat np - 1)%Z)) as V.
    { intros i Hi. apply vat_eq. unfold x, uniform_axis. rewrite list_lookup_fmap, lookup_seq_lt by done. simpl. rewrite div_inv by done. reflexivity. }
    split; [exact Hl|]. split; [|split].
    - intros i Hi. rewrite !V by lia. replace (Z.of_nat (i + 1)) with (Z.of_nat i + 1)%Z by lia. rewrite Z1.
      match goal with |- pos ?e => replace e with ((rmax - rmin) * (s1 / ofint (Z.of_nat np - 1)%Z)) by ring end.
      apply (pos_mul _ Hpos); [exact Hr|]. apply (p_inv pos Hpos), PN.
    - rewrite V by lia. change (Z.of_nat 0) with 0%Z. rewrite Z0. ring.
    - rewrite V by lia. replace (Z.of_nat (np - 1)) with (Z.of_nat np - 1)%Z by lia.
      transitivity (rmin + (rmax - rmin) * (ofint (Z.of_nat np - 1)%Z * (s1 / ofint (Z.of_nat np - 1)%Z))); [ring|]. rewrite inv_r by done. ring.
  Qed.  (** The same for the Chebyshev mesh, given a cosine that decreases from 1 to -1 on [0, pi]. *)
  Theorem C105_chebyshev ofint cosine pi rmin rmax np : (2 <= np)%nat -> pos (rmax - rmin) -> pos pi ->
    ofint 0%Z = s0 -> (forall z, ofint (z + 1)%Z = ofint z + s1) -> (forall z, (0 < z)%Z -> pos (ofint z)) ->
    cosine s0 = s1 -> cosine pi = sopp s1 ->
    (forall s t, at_least_zero pos s -> pos (t - s) -> at_least_zero pos (pi - t) -> pos (cosine s - cosine t)) ->
    let x := chebyshev_axis ofint cosine pi rmin rmax np in
    length x = np /\ increasing pos x /\ vat x 0 = rmin /\ vat x (np - 1) = rmax.
  Proof.
    intros Hn Hr Hpi Z0 Z1 Zp C0 C1 Cd x. assert (length x = np) as Hl by (unfold x, chebyshev_axis; rewrite fmap_length, seq_length; reflexivity).
    pose proof (Zp (Z.of_nat np - 1)%Z ltac:(lia)) as PN. pose proof (p_ne pos Hpos _ PN) as NZ.
    set (N := ofint (Z.of_nat np - 1)%Z) in *. pose proof (inv_r N NZ) as EN. pose proof (p_inv pos Hpos N PN) as PI.
    assert (forall i, (i < np)%nat -> vat x i = (rmax + rmin) * half + (rmax - rmin) * half * cosine (pi - ofint (Z.of_nat i) * (pi * (s1 / N)))) as V.
    { intros i Hi. apply vat_eq. unfold x, chebyshev_axis. rewrite list_lookup_fmap, lookup_seq_lt by done. simpl. fold N. rewrite (div_inv pi N NZ). reflexivity. }
    assert (half + half = (s1 : F)) as HH.
    { transitivity (half * two : F); [unfold two; ring|]. unfold half. apply field_div. apply (p_ne pos Hpos two), (p_two pos Hpos). }
    assert (forall k, at_least_zero pos (ofint (Z.of_nat k))) as Znn by (intros [|k]; [left; exact Z0|right; apply Zp; lia]).
    assert (forall d z, ofint (z + Z.of_nat d)%Z = ofint z + ofint (Z.of_nat d)) as Zadd.
    { induction d as [|d IH]; intros z; [change (Z.of_nat 0) with 0%Z; rewrite Z.add_0_r, Z0; ring|].
      replace (z + Z.of_nat (S d))%Z with (z + Z.of_nat d + 1)%Z by lia. replace (Z.of_nat (S d)) with (Z.of_nat d + 1)%Z by lia. rewrite !Z1, IH. ring. }
    split; [exact Hl|]. split; [|split].
    - intros i Hi. rewrite !V by lia.
      match goal with |- pos (?a + ?h * ?c1 - (?a + ?h * ?c2)) => replace (a + h * c1 - (a + h * c2)) with (h * (c1 - c2)) by ring end.
      apply (pos_mul _ Hpos); [apply (pos_mul _ Hpos); [exact Hr|apply (p_half pos Hpos)]|].
      assert (N = ofint (Z.of_nat (i + 1)) + ofint (Z.of_nat (np - 1 - (i + 1)))) as EN2.
      { unfold N. rewrite <- Zadd. f_equal. lia. }
      apply Cd.
      + assert (pi = pi * (s1 / N) * N) as Ep by (transitivity (pi * (N * (s1 / N))); [rewrite EN; ring|ring]). rewrite Ep at 1. rewrite EN2 at 2.
        match goal with |- at_least_zero pos ?e => replace e with ((pi * (s1 / N)) * ofint (Z.of_nat (np - 1 - (i + 1)))) by ring end.
        apply nn_mul; [apply (pos_mul _ Hpos); done|apply Znn].
      + replace (Z.of_nat (i + 1)) with (Z.of_nat i + 1)%Z by lia. rewrite Z1. match goal with |- pos ?e => replace e with (pi * (s1 / N)) by ring end. apply (pos_mul _ Hpos); done.
      + match goal with |- at_least_zero pos ?e => replace e with ((pi * (s1 / N)) * ofint (Z.of_nat i)) by ring end. apply nn_mul; [apply (pos_mul _ Hpos); done|apply Znn].
    - rewrite V by lia. change (Z.of_nat 0) with 0%Z. rewrite Z0. replace (pi - s0 * (pi * (s1 / N))) with pi by ring. rewrite C1.
      transitivity ((half + half) * rmin); [ring|]. rewrite HH. ring.
    - rewrite V by lia. replace (Z.of_nat (np - 1)) with (Z.of_nat np - 1)%Z by lia. fold N.
      replace (pi - N * (pi * (s1 / N))) with (pi * (s1 - N * (s1 / N))) by ring. rewrite EN. replace (pi * (s1 - s1)) with (s0 : F) by ring. rewrite C0.
      transitivity ((half + half) * rmax); [ring|]. rewrite HH. ring.
  Qed.

  (** ** The mesh size *)
  Definition le (a b : F) : Prop := at_least_zero pos (b - a).
  Lemma le_refl a : le a a.
  Proof. left. ring. Qed.
  Lemma le_trans a b c : le a b -> le b c -> le a c.
  Proof. intros H1 H2. unfold le. replace (c - a) with ((b - a) + (c - b)) by ring. apply nn_add; done. Qed.
  Lemma for_max (Att : F -> Prop) (C : nat -> F -> Prop) (body : nat -> F -> res F) n : forall lo s,
    (forall i h, (lo <= i < lo + n)%nat -> Att h -> ok (body i h) (fun h' => Att h' /\ le h h' /\ C i h')) ->
    (forall i h h', C i h -> le h h' -> C i h') -> Att s ->
    ok (for_n n lo body s) (fun h' => Att h' /\ le s h' /\ forall i, (lo <= i < lo + n)%nat -> C i h').
  Proof.
    induction n as [|n IH]; intros lo s Hb Hc Hs; simpl.
    - split; [exact Hs|]. split; [apply le_refl|]. intros i Hi. lia.
    - eapply ok_bind; [apply Hb; [lia|exact Hs]|]. cbv beta. intros h (A1 & A2 & A3). eapply ok_mono; [apply IH; [intros; apply Hb; [lia|assumption]|exact Hc|exact A1]|].
      cbv beta. intros h' (B1 & B2 & B3). split; [exact B1|]. split; [apply le_trans with h; done|]. intros i Hi. destruct (decide (i = lo)) as [-> |Hd]; [apply Hc with h; done|]. apply B3. lia.
  Qed.
  (** the diagonal of cell (k, j, i) of the mesh *)
  Definition diagonal (ssqrt : F -> F) (m : mesh F) (k j i : nat) : F :=
    let d (x : list F) i := vat x (i + 1) - vat x i in
    ssqrt (d (cx m) i * d (cx m) i + d (cy m) j * d (cy m) j + d (cz m) k * d (cz m) k).
  Definition cell (m : mesh F) (k j i : nat) : Prop := (k + 1 < length (cz m) /\ j + 1 < length (cy m) /\ i + 1 < length (cx m))%nat.
  (** computeMeshSize stays within the arrays and returns the length of the longest cell diagonal. *)
  Theorem C105_mesh_size ssqrt slt m : (forall a b, slt a b = true <-> pos (b - a)) -> (forall k j i, cell m k j i -> pos (diagonal ssqrt m k j i)) ->
    ok (computeMeshSize ssqrt slt m) (fun h => (forall k j i, cell m k j i -> le (diagonal ssqrt m k j i) h) /\
      ((forall k j i, ~ cell m k j i) \/ exists k j i, cell m k j i /\ h = diagonal ssqrt m k j i)).
  Proof.
    intros Hlt Hd. pose (Att := fun h : F => h = s0 \/ exists k j i, cell m k j i /\ h = diagonal ssqrt m k j i).
    pose (C3 := fun k j i h => le (diagonal ssqrt m k j i) h).
    pose (C2 := fun k j h => forall i, (0 <= i < 0 + (length (cx m) - 1 - 0))%nat -> C3 k j i h).
    pose (C1 := fun k h => forall j, (0 <= j < 0 + (length (cy m) - 1 - 0))%nat -> C2 k j h).
    assert (forall k j i h h', C3 k j i h -> le h h' -> C3 k j i h') as M3 by (intros k j i h h' H1 H2; apply le_trans with h; done).
    assert (forall k j h h', C2 k j h -> le h h' -> C2 k j h') as M2 by (intros k j h h' H1 H2 i Hi; apply (M3 k j i h h'); [apply H1, Hi|done]).
    assert (forall k h h', C1 k h -> le h h' -> C1 k h') as M1 by (intros k h h' H1 H2 j Hj; apply (M2 k j h h'); [apply H1, Hj|done]).
    assert (forall (x : list F) i, (i < length x)%nat -> get x i = Ok (vat x i)) as G by (intros x i Hi; unfold get; rewrite (vat_Some x i Hi); reflexivity).
    eapply ok_mono; [apply (for_max Att C1)|].
    - intros k h Hk Ah. rewrite !G by lia. cbn [bind]. apply (for_max Att (C2 k)); [|apply M2|exact Ah].
      intros j h1 Hj Ah1. rewrite !G by lia. cbn [bind]. apply (for_max Att (C3 k j)); [|apply M3|exact Ah1].
      intros i h2 Hi Ah2. rewrite !G by lia. cbn [bind]. apply ok_ret. cbv zeta.
      match goal with |- context [ssqrt ?e] => replace (ssqrt e) with (diagonal ssqrt m k j i) by (unfold diagonal; f_equal; ring) end.
      assert (cell m k j i) as Hc by (unfold cell; lia). destruct (slt h2 (diagonal ssqrt m k j i)) eqn:E.
      + apply Hlt in E. split; [right; eauto 6|]. split; [right; exact E|]. apply le_refl.
      + split; [exact Ah2|]. split; [apply le_refl|]. unfold C3, le. destruct (pos_total _ Hpos (h2 - diagonal ssqrt m k j i)) as [H|[H|H]]; [left; exact H|right; exact H|].
        replace (sopp (h2 - diagonal ssqrt m k j i)) with (diagonal ssqrt m k j i - h2) in H by ring. apply Hlt in H. congruence.
    - exact M1.
    - left. reflexivity.
    - cbv beta. intros h (Ah & _ & Hall). assert (forall k j i, cell m k j i -> le (diagonal ssqrt m k j i) h) as Hmax.
      { intros k j i (Hk & Hj & Hi). apply (Hall k ltac:(lia) j ltac:(lia) i ltac:(lia)). }
      split; [exact Hmax|]. destruct Ah as [-> |Ah]; [left|right; exact Ah].
      intros k j i Hc. apply (not_both _ (Hmax k j i Hc)). pose proof (Hd k j i Hc) as P. replace (sopp (s0 - diagonal ssqrt m k j i)) with (diagonal ssqrt m k j i) by ring. exact P.
  Qed.
End Prop105.

(** The number of interior points is the number of unknowns. *)
Theorem C105_count n0 n1 n2 : ninpoin n0 n1 n2 = ((n0 - 2) * (n1 - 2) * (n2 - 2))%Z.
Proof. unfold ninpoin. ring. Qed.

(** ** A case: four by four by five points, coordinates 0 1 3 4, two processes owning one layer of unknowns more or less *)
Definition ex_mesh : mesh Qc := Mesh (q <$> [0; 1; 3; 4]%Z) (q <$> [0; 1; 2; 4]%Z) (q <$> [0; 1; 2; 4; 5]%Z).
Definition ex_boxes : list box := [Box 0 0 0 2 2 2; Box 0 0 2 2 2 1].
Definition qpos (x : Qc) : Prop := Qclt (q 0) x.
Lemma ex_good : good_mesh qpos ex_mesh.
Proof.
  assert (forall l : list Z, (forall i a b, l !! i = Some a -> l !! (i + 1) = Some b -> (a < b)%Z) -> increasing qpos (q <$> l)) as H.
  { intros l Hl i Hi. rewrite fmap_length in Hi. destruct (lookup_lt_is_Some_2 l i ltac:(lia)) as [a Ha]. destruct (lookup_lt_is_Some_2 l (i + 1) Hi) as [b Hb].
    pose proof (Hl i a b Ha Hb) as L. unfold vat. rewrite !list_lookup_fmap, Ha, Hb. cbn [fmap option_fmap option_map default]. unfold qpos.
    change (q 0 < q b - q a)%Qc. apply -> Qclt_minus_iff. unfold q, Qclt. simpl. rewrite !Qreduction.Qred_correct. unfold QArith_base.Qlt. simpl. lia. }
  repeat split; apply H; intros i a b Ha Hb;
    (do 5 (destruct i as [|i]; [simpl in Ha, Hb; try discriminate; injection Ha as <-; injection Hb as <-; lia|])); discriminate.
Qed.
Lemma ex_partition : partition ex_mesh ex_boxes.
Proof.
  split; [|split].
  - intros b Hb p Hp. destruct p as [[k j] i]. unfold grid, on_axis, ex_mesh. simpl. repeat (apply elem_of_cons in Hb; destruct Hb as [->|Hb]; [unfold in_box in Hp; simpl in Hp; lia|]). apply elem_of_nil in Hb. destruct Hb.
  - intros [[k j] i]. unfold grid, on_axis, ex_mesh. simpl. intros H. destruct (decide (k < 2)%Z).
    + exists 0, (Box 0 0 0 2 2 2). split; [reflexivity|]. unfold in_box. simpl. lia.
    + exists 1, (Box 0 0 2 2 2 1). split; [reflexivity|]. unfold in_box. simpl. lia.
  - intros [[k j] i] [|[|n]] [|[|n']] b b' Hb Hb'; simpl in Hb, Hb'; try discriminate; try reflexivity;
      injection Hb as <-; injection Hb' as <-; unfold in_box; simpl; lia.
Qed.
Definition ex_wave (t : Qc) : Qc := (t * (q 4 - t))%Qc.
Example C105_case :
  ok (mapr (computeLHS ex_mesh) ex_boxes) (fun parts => length (concat parts) = 84 /\
    (forall u p, grid ex_mesh p -> row_apply (concat parts) u p = minus_laplacian ex_mesh u p)) /\
  ok (computeRHS ex_wave (q 12) ex_mesh (Box 0 0 0 2 2 2)) (fun l => exists f u, ((0, 0, 0)%Z, f, u) ∈ l /\ u = s0 /\ f = s0 /\
    u <> waves ex_wave (place (cx ex_mesh) 0) (place (cy ex_mesh) 0) (place (cz ex_mesh) 0)) /\
  (forall v, computeNorm (q 1) ex_mesh (Box 0 0 2 2 2 1) v = UB).
Proof.
  split; [|split].
  - apply ok_and.
    + rewrite all_ok by apply ex_partition. apply ok_ret. rewrite concat_rows. change 84 with (7 * length (ex_boxes ≫= pts)).
      generalize (ex_boxes ≫= pts). intros l. induction l as [|[[k j] i] l IH]; [reflexivity|]. rewrite bind_cons, app_length, IH. cbn [row length]. lia.
    + eapply ok_mono; [apply (C105_matrix qpos Qc_ordered ex_mesh ex_boxes ex_good ex_partition)|]. cbv zeta. intros parts H. apply H.
  - apply C105_rhs_refuted.
    + apply (proj1 ex_partition). left.
    + unfold in_box. simpl. lia.
    + vm_compute. reflexivity.
    + intros E. apply (f_equal (fun x : Qc => QArith_base.Qnum (this x))) in E. vm_compute in E. discriminate E.
  - intros v. apply C105_norm_refuted; simpl; auto; lia.
Qed.
(** any right-hand side has at most one solution on that mesh, and rhs >= 0 gives u >= 0 *)
Example C106_case u w : (forall p, ~ grid ex_mesh p -> u p = w p) ->
  ok (mapr (computeLHS ex_mesh) ex_boxes) (fun parts =>
    (forall p, grid ex_mesh p -> row_apply (concat parts) u p = row_apply (concat parts) w p) -> forall p, u p = w p).
Proof. apply (C106_unique qpos Qc_ordered ex_mesh ex_boxes u w ex_good ex_partition). Qed.

(** eleven points from 0 to 1 *)
Example C105_uniform_case : let x := uniform_axis q (q 0) (q 1) 11 in
  length x = 11 /\ increasing qpos x /\ vat x 0 = q 0 /\ vat x 10 = q 1.
Proof.
  apply (C105_uniform qpos Qc_ordered q (q 0) (q 1) 11).
  - lia.
  - vm_compute. reflexivity.
  - reflexivity.
  - intros z. apply Qc_is_canon. change (s1 (F := Qc)) with (q 1). simpl. rewrite !Qreduction.Qred_correct. unfold QArith_base.Qeq. simpl. lia.
  - intros z Hz. unfold qpos, q, Qclt. simpl. rewrite !Qreduction.Qred_correct. unfold QArith_base.Qlt. simpl. lia.
Qed.
(** a piecewise linear "cosine" on [0, 2] *)
Example C105_chebyshev_case : let x := chebyshev_axis q (fun t => q 1 - t)%Qc (q 2) (q 0) (q 1) 11 in
  length x = 11 /\ increasing qpos x /\ vat x 0 = q 0 /\ vat x 10 = q 1.
Proof.
  apply (C105_chebyshev qpos Qc_ordered q (fun t => q 1 - t)%Qc (q 2) (q 0) (q 1) 11).
  - lia.
  - vm_compute. reflexivity.
  - vm_compute. reflexivity.
  - reflexivity.
  - intros z. apply Qc_is_canon. change (s1 (F := Qc)) with (q 1). simpl. rewrite !Qreduction.Qred_correct. unfold QArith_base.Qeq. simpl. lia.
  - intros z Hz. unfold qpos, q, Qclt. simpl. rewrite !Qreduction.Qred_correct. unfold QArith_base.Qlt. simpl. lia.
  - apply Qc_is_canon. reflexivity.
  - apply Qc_is_canon. reflexivity.
  - intros s t _ H _. unfold qpos in *. change (t - s)%s with (t - s)%Qc in H. change ((q 1 - s)%Qc - (q 1 - t)%Qc)%s with ((q 1 - s) - (q 1 - t))%Qc.
    replace ((q 1 - s) - (q 1 - t))%Qc with (t - s)%Qc by ring. exact H.
Qed.

Print Assumptions C105_matrix.
Print Assumptions C105_signs.
Print Assumptions C105_consistent.
Print Assumptions C105_rhs.
Print Assumptions C105_rhs_refuted.
Print Assumptions C105_norm_refuted.
Print Assumptions C105_uniform.
Print Assumptions C105_chebyshev.
Print Assumptions C105_mesh_size.
Print Assumptions C105_count.
Print Assumptions C106_monotone.
Print Assumptions C106_unique.
Print Assumptions C106_symmetric.
