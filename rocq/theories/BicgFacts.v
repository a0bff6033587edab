(** * BicgFacts: biorthogonality of the textbook BiCGSTAB, and its end within n steps *)
From Verif Require Import Base Alg Nd TriSpec TriFacts SymSpec SymFacts SolveSpec BicgSpec Solvers SolversFacts GcrFacts.
Open Scope nat_scope.

Section Bicg.
  Context {F : Type} {O : SOps F} {FF : Field F}.
  Add Ring Fr2 : (@cring F O field_ring).
  Variables (pos : F -> Prop) (N : nat) (A K : nat -> nat -> F) (b x0 : list F).
  Hypothesis Hpos : ordered pos.
  Open Scope s_scope.
  Notation mk f := (fmap (M:=list) (f : nat -> F) (seq 0 N)).
  Notation "⟨ u , v ⟩" := (dot N u v) (at level 0, u at level 99, v at level 99).
  Notation comb := (comb N).
  Notation B := (AK N A K).
  Notation T M := (fun i j => M j i).

  Lemma comb_length a u c v : length (comb a u c v) = N.
  Proof. apply mk_length. Qed.
  Lemma comb_at a u c v i : (i < N)%nat -> vat (comb a u c v) i = a * vat u i + c * vat v i.
  Proof. intros Hi. unfold BicgSpec.comb. rewrite (mk_at N _ i Hi). reflexivity. Qed.
  Lemma dot_comb w a u c v : ⟨w, comb a u c v⟩ = a * ⟨w, u⟩ + c * ⟨w, v⟩.
  Proof. rewrite dot_sym. unfold BicgSpec.comb. rewrite dot_lin, !(dot_sym N w). reflexivity. Qed.
  Lemma veq (u v : list F) : length u = N -> length v = N -> (forall i, (i < N)%nat -> vat u i = vat v i) -> u = v.
  Proof.
    intros Lu Lv H. rewrite (mk_eq N u (vat v) Lu H). symmetry. apply mk_eq; [exact Lv|]. reflexivity.
  Qed.
  Lemma times_comb M a u c v : times N M (comb a u c v) = comb a (times N M u) c (times N M v).
  Proof.
    apply veq; [apply times_length|apply comb_length|]. intros i Hi. rewrite comb_at by exact Hi. unfold BicgSpec.comb.
    rewrite (times_lin N M a u c v i Hi). reflexivity.
  Qed.
  Lemma times_adj M u v : ⟨u, times N M v⟩ = ⟨times N (T M) u, v⟩.
  Proof.
    unfold dot. transitivity (bsum N (fun i => bsum N (fun j => vat u i * M i j * vat v j))).
    - apply bsum_ext. intros i Hi. rewrite times_at by exact Hi. rewrite <- bsum_mul_l. apply bsum_ext. intros j _. ring.
    - rewrite bsum_swap. apply bsum_ext. intros j Hj. rewrite times_at by exact Hj. rewrite <- bsum_mul_r. apply bsum_ext. intros i _. ring.
  Qed.
  Lemma B_length v : length (B v) = N. Proof. apply times_length. Qed.
  Lemma B_comb a u c v : B (comb a u c v) = comb a (B u) c (B v).
  Proof. unfold AK. rewrite !times_comb. reflexivity. Qed.
  Definition BT (u : list F) : list F := times N (T K) (times N (T A) u).
  Lemma B_adj u v : ⟨u, B v⟩ = ⟨BT u, v⟩.
  Proof. unfold AK, BT. rewrite !times_adj. reflexivity. Qed.

  Lemma field_inj (c a d : F) : c <> s0 -> c * a = c * d -> a = d.
  Proof.
    intros Hc E. assert (forall y : F, y = s1 / c * (c * y)) as H.
    { intros y. transitivity (s1 / c * c * y); [rewrite field_cancel by exact Hc; ring|ring]. }
    rewrite (H a), (H d), E. reflexivity.
  Qed.
  Lemma mul_ne (a c : F) : a <> s0 -> c <> s0 -> a * c <> s0.
  Proof. intros Ha Hc E. apply Hc, (field_inj a); [exact Ha|]. rewrite E. ring. Qed.

  (** ** a triangular family has at most N members *)
  Lemma gram_schmidt (u a : nat -> list F) m :
    (forall j i, (j < i)%nat -> (i < m)%nat -> ⟨u j, a i⟩ = s0) -> (forall i, (i < m)%nat -> ⟨u i, a i⟩ <> s0) ->
    exists g : nat -> list F, (forall l l', (l < m)%nat -> (l' < m)%nat -> l <> l' -> ⟨g l, g l'⟩ = s0) /\ (forall l, (l < m)%nat -> ⟨g l, g l⟩ <> s0) /\
      (forall l w, (l < m)%nat -> (forall j, (j < l)%nat -> ⟨u j, w⟩ = s0) -> ⟨g l, w⟩ = ⟨u l, w⟩).
  Proof.
    induction m as [|m IH]; intros Hz Hn.
    - exists u. split; [|split]; intros; lia.
    - destruct IH as (g & Ho & Hg & Hw); [intros; apply Hz; lia|intros; apply Hn; lia|].
      set (c := fun l => sopp ⟨u m, g l⟩ / ⟨g l, g l⟩).
      set (gm := mk (fun i => vat (u m) i + bsum m (fun l => c l * vat (g l) i))).
      set (g' := fun l => if decide (l < m)%nat then g l else gm).
      assert (forall w, ⟨w, gm⟩ = ⟨w, u m⟩ + bsum m (fun l => c l * ⟨w, g l⟩)) as Eg by (intros w; apply (dot_sum N)).
      assert (forall l, (l < m)%nat -> g' l = g l) as E1 by (intros l Hl; unfold g'; apply decide_True, Hl).
      assert (g' m = gm) as E2 by (unfold g'; apply decide_False; lia).
      assert (forall l, (l < m)%nat -> ⟨g l, gm⟩ = s0) as Hgm.
      { intros l Hl. rewrite Eg. rewrite (bsum_single m l (fun l0 => c l0 * ⟨g l, g l0⟩)); [|exact Hl|].
        - unfold c. rewrite field_cancel by (apply Hg, Hl). rewrite (dot_sym N (u m)). ring.
        - intros l' Hl' Hne. rewrite Ho by auto. ring. }
      assert (forall w, (forall j, (j < m)%nat -> ⟨u j, w⟩ = s0) -> ⟨gm, w⟩ = ⟨u m, w⟩) as Hgw.
      { intros w H. rewrite dot_sym, Eg, bsum_zero; [rewrite (dot_sym N w); ring|].
        intros l Hl. rewrite (dot_sym N w), Hw; [|exact Hl|intros; apply H; lia]. rewrite H by exact Hl. ring. }
      exists g'. split; [|split].
      + intros l l' Hl Hl' Hne. destruct (decide (l = m)) as [->|H1], (decide (l' = m)) as [->|H2]; [congruence| | |].
        * rewrite E2, E1 by lia. rewrite dot_sym. apply Hgm. lia.
        * rewrite E2, E1 by lia. apply Hgm. lia.
        * rewrite !E1 by lia. apply Ho; lia.
      + intros l Hl. destruct (decide (l = m)) as [->|H1]; [|rewrite !E1 by lia; apply Hg; lia].
        rewrite E2. apply (sqnorm_ne pos N Hpos). apply (dot_nonzero pos N Hpos (a m)). rewrite dot_sym.
        rewrite Hgw by (intros; apply Hz; lia). apply Hn. lia.
      + intros l w Hl H. destruct (decide (l = m)) as [->|H1]; [rewrite E2; apply Hgw, H|rewrite E1 by lia; apply Hw; [lia|exact H]].
  Qed.
  Lemma triangular_count (u a : nat -> list F) m :
    (forall j i, (j < i)%nat -> (i < m)%nat -> ⟨u j, a i⟩ = s0) -> (forall i, (i < m)%nat -> ⟨u i, a i⟩ <> s0) -> (m <= N)%nat.
  Proof.
    intros H1 H2. destruct (gram_schmidt u a m H1 H2) as (g & Ho & Hg & _). exact (orth_count pos N Hpos m g Ho Hg).
  Qed.
  Lemma triangular_full (u a : nat -> list F) w :
    (forall j i, (j < i)%nat -> (i < N)%nat -> ⟨u j, a i⟩ = s0) -> (forall i, (i < N)%nat -> ⟨u i, a i⟩ <> s0) ->
    (forall j, (j < N)%nat -> ⟨u j, w⟩ = s0) -> forall i, (i < N)%nat -> vat w i = s0.
  Proof.
    intros H1 H2 H3. destruct (zero_or_not pos N Hpos w) as [H|H]; [exact H|exfalso].
    set (u' := fun j => if decide (j < N)%nat then u j else w). set (a' := fun j => if decide (j < N)%nat then a j else w).
    enough (S N <= N)%nat by lia. apply (triangular_count u' a').
    - intros j i Hj Hi. unfold u', a'. rewrite decide_True by lia. destruct (decide (i < N)%nat) as [Hl|Hl]; [apply H1|apply H3]; lia.
    - intros i Hi. unfold u', a'. destruct (decide (i < N)%nat) as [Hl|Hl]; [apply H2, Hl|apply (sqnorm_ne pos N Hpos w H)].
  Qed.

  (** ** the sequences of BiCG behind BiCGSTAB *)
  Notation st i := (tb_at N A K b x0 i).
  Notation rhat := (tb_r0 N A b x0).
  Notation rho i := (tb_rho N A b x0 (st i)).
  Notation sigma i := (tb_sigma N A K b x0 (st i)).
  Notation alpha i := (tb_alpha N A K b x0 (st i)).
  Notation omega i := (tb_omega N A K b x0 (st i)).
  Notation vs i := (tb_s N A K b x0 (st i)).
  Notation vt i := (tb_t N A K b x0 (st i)).
  Notation vv i := (tb_v N A K (st i)).
  Definition bet (i : nat) : F := rho (S i) * alpha i / (rho i * omega i).
  (** residuals and directions of BiCG *)
  Fixpoint ac (i : nat) : list F * list F :=
    match i with
    | 0%nat => (rhat, rhat)
    | S i => let a := comb s1 (fst (ac i)) (sopp (alpha i)) (B (snd (ac i))) in (a, comb s1 a (bet i) (snd (ac i)))
    end.
  Notation av i := (fst (ac i)).
  Notation cv i := (snd (ac i)).
  (** the product of the I - omega_j A K, j < i *)
  Fixpoint psi (i : nat) (w : list F) : list F :=
    match i with 0%nat => w | S i => comb s1 (psi i w) (sopp (omega i)) (B (psi i w)) end.
  Fixpoint lead (i : nat) : F := match i with 0%nat => s1 | S i => sopp (omega i) * lead i end.
  Fixpoint uu (j : nat) : list F := match j with 0%nat => rhat | S j => BT (uu j) end.

  Lemma av_length i : length (av i) = N.
  Proof. destruct i; simpl; [apply resid_length|apply comb_length]. Qed.
  Lemma cv_length i : length (cv i) = N.
  Proof. destruct i; simpl; [apply resid_length|apply comb_length]. Qed.
  Lemma psi_length i w : length w = N -> length (psi i w) = N.
  Proof. destruct i; simpl; [auto|intros; apply comb_length]. Qed.
  Lemma psi_comb i : forall a u c v, psi i (comb a u c v) = comb a (psi i u) c (psi i v).
  Proof.
    induction i as [|i IH]; intros a u c v; [reflexivity|]. simpl. rewrite IH, B_comb.
    apply veq; [apply comb_length|apply comb_length|]. intros j Hj. rewrite !comb_at by exact Hj. ring.
  Qed.
  Lemma psi_B i : forall w, psi i (B w) = B (psi i w).
  Proof. induction i as [|i IH]; intros w; [reflexivity|]. simpl. rewrite IH, B_comb. reflexivity. Qed.
  Lemma u_B j w : ⟨uu j, B w⟩ = ⟨uu (S j), w⟩.
  Proof. apply B_adj. Qed.
  Lemma psi_dot i : forall k w, (forall j, (k <= j)%nat -> (j < k + i)%nat -> ⟨uu j, w⟩ = s0) -> ⟨uu k, psi i w⟩ = lead i * ⟨uu (k + i), w⟩.
  Proof.
    induction i as [|i IH]; intros k w H.
    - simpl. rewrite Nat.add_0_r. ring.
    - cbn [psi lead]. rewrite dot_comb, u_B. rewrite (IH k) by (intros; apply H; lia). rewrite (IH (S k)) by (intros; apply H; lia).
      rewrite (H (k + i)%nat) by lia. replace (S k + i)%nat with (k + S i)%nat by lia. ring.
  Qed.
  (** BiCGSTAB's vectors are those of BiCG times the product *)
  Lemma s_of i : tb_r (st i) = psi i (av i) -> tb_p (st i) = psi i (cv i) -> vs i = psi i (av (S i)).
  Proof. intros Hr Hp. cbn [ac fst snd]. rewrite psi_comb, psi_B, <- Hr, <- Hp. reflexivity. Qed.
  Lemma tb_psi i : tb_r (st i) = psi i (av i) /\ tb_p (st i) = psi i (cv i).
  Proof.
    induction i as [|i [Hr Hp]]; [split; reflexivity|].
    assert (tb_r (st (S i)) = psi (S i) (av (S i))) as Er.
    { cbn [psi]. rewrite <- (s_of i Hr Hp). reflexivity. }
    split; [exact Er|].
    change (comb s1 (tb_r (st (S i))) (bet i) (comb s1 (tb_p (st i)) (sopp (omega i)) (vv i)) = psi (S i) (comb s1 (av (S i)) (bet i) (cv i))).
    rewrite psi_comb, <- Er. f_equal. cbn [psi]. rewrite <- Hp. reflexivity.
  Qed.
  Lemma rho_eq i : (forall j, (j < i)%nat -> ⟨uu j, av i⟩ = s0) -> rho i = lead i * ⟨uu i, av i⟩.
  Proof. intros H. unfold tb_rho. rewrite (proj1 (tb_psi i)). apply (psi_dot i 0). intros; apply H; lia. Qed.
  Lemma sigma_eq i : (forall j, (j < i)%nat -> ⟨uu (S j), cv i⟩ = s0) -> sigma i = lead i * ⟨uu (S i), cv i⟩.
  Proof.
    intros H. unfold tb_sigma, tb_v. rewrite (proj2 (tb_psi i)). change rhat with (uu 0). rewrite u_B. apply (psi_dot i 1).
    intros [|j] H1 H2; [lia|]. apply H. lia.
  Qed.
  Definition regular (i : nat) : Prop := rho i <> s0 /\ sigma i <> s0 /\ omega i <> s0.
  Lemma biorth i : (forall j, (j < i)%nat -> regular j) ->
    lead i <> s0 /\ (forall j, (j < i)%nat -> ⟨uu j, av i⟩ = s0) /\ (forall j, (j < i)%nat -> ⟨uu (S j), cv i⟩ = s0).
  Proof.
    induction i as [|i IH]; intros Hreg.
    - split; [apply field_10|]. split; intros; lia.
    - destruct IH as (HL & Ha & Hc); [intros; apply Hreg; lia|]. destruct (Hreg i) as (Hrho & Hsig & Hom); [lia|].
      pose proof (rho_eq i Ha) as Er. pose proof (sigma_eq i Hc) as Es.
      assert (alpha i * ⟨uu (S i), cv i⟩ = ⟨uu i, av i⟩) as Eal.
      { apply (field_inj (lead i)); [exact HL|]. rewrite <- Er. transitivity (alpha i * sigma i); [rewrite Es; ring|]. apply field_cancel, Hsig. }
      assert (forall j, (j < S i)%nat -> ⟨uu j, av (S i)⟩ = s0) as Ha'.
      { intros j Hj. cbn [ac fst snd]. rewrite dot_comb, u_B. destruct (decide (j = i)) as [->|Hne].
        - rewrite <- Eal. ring.
        - rewrite Ha, Hc by lia. ring. }
      assert (lead (S i) <> s0) as HL'.
      { cbn [lead]. intros E. apply (mul_ne _ _ Hom HL). transitivity (sopp (sopp (omega i) * lead i)); [ring|]. rewrite E. ring. }
      split; [exact HL'|]. split; [exact Ha'|].
      intros j Hj. change (cv (S i)) with (comb s1 (av (S i)) (bet i) (cv i)). rewrite dot_comb.
      destruct (decide (j = i)) as [->|Hne]; [|rewrite Ha' by lia; rewrite Hc by lia; ring].
      pose proof (rho_eq (S i) Ha') as Er'. cbn [lead] in Er'.
      apply (field_inj (rho i * omega i)); [apply mul_ne; assumption|].
      assert (bet i * (rho i * omega i) = rho (S i) * alpha i) as Eb by (apply field_cancel, mul_ne; assumption).
      transitivity (rho i * omega i * ⟨uu (S i), av (S i)⟩ + bet i * (rho i * omega i) * ⟨uu (S i), cv i⟩); [ring|].
      rewrite Eb. transitivity (rho i * omega i * ⟨uu (S i), av (S i)⟩ + rho (S i) * (alpha i * ⟨uu (S i), cv i⟩)); [ring|].
      rewrite Eal, Er', Er. ring.
  Qed.
  Lemma psi_zero i w : (forall k, (k < N)%nat -> vat w k = s0) -> forall k, (k < N)%nat -> vat (psi i w) k = s0.
  Proof.
    intros H. induction i as [|i IH]; [exact H|]. intros k Hk. cbn [psi]. rewrite comb_at by exact Hk. rewrite IH by exact Hk.
    unfold AK. rewrite times_at by exact Hk. rewrite bsum_zero; [ring|]. intros j Hj. rewrite times_at by exact Hj.
    rewrite bsum_zero; [ring|]. intros l Hl. rewrite IH by exact Hl. ring.
  Qed.
  Lemma tb_full : (forall j, (j < N)%nat -> regular j) -> forall k, (k < N)%nat -> vat (tb_r (st N)) k = s0.
  Proof.
    intros Hreg. rewrite (proj1 (tb_psi N)). apply psi_zero. apply (triangular_full uu (fun i => av i)).
    - intros j i Hj Hi. apply (biorth i); [intros; apply Hreg; lia|exact Hj].
    - intros i Hi E. destruct (biorth i) as (_ & Ha & _); [intros; apply Hreg; lia|]. destruct (Hreg i Hi) as [Hr _]. apply Hr.
      rewrite (rho_eq i Ha), E. ring.
    - apply biorth, Hreg.
  Qed.
End Bicg.
