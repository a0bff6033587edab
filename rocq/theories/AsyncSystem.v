(** * AsyncSystem: kernels that compute one block of the array from others

    All asynchronous loops of the library have the same shape: task [r] computes
    [w] values (one entry, a segment of a block vector, or a block of a factor)
    from other entries of the shared array and then stores them at
    [r*w .. r*w+w-1]. *)
From Verif Require Import Base Async AsyncTheory.

Section Regions.
  Context {V : Type}.
  Notation P := (@P V).
  (** several parallel regions one after the other (barriers in between) *)
  Inductive regions (T : nat -> P unit) (nthr : nat) : list (list (list nat)) -> list V -> list V -> Prop :=
  | regions_nil m : regions T nthr [] m m
  | regions_cons q qs m m1 m' :
      region T nthr q m m1 -> regions T nthr qs m1 m' -> regions T nthr (q :: qs) m m'.
  Fixpoint regions_safe (T : nat -> P unit) (nthr : nat) (qs : list (list (list nat))) (m : list V) : Prop :=
    match qs with
    | [] => True
    | q :: qs' => region_safe T nthr q m /\
                  forall m1, region T nthr q m m1 -> regions_safe T nthr qs' m1
    end.

  Lemma regions_settle (T : nat -> P unit) nthr ms : forall qs (X : nat -> nat -> Prop) m,
    (forall j q r, qs !! j = Some q -> r ∈ concat q ->
       good (X j) ms (T r) \/ avoids (length ms) (X (S j)) (T r)) ->
    (forall j q l, qs !! j = Some q -> X (S j) l ->
       X j l \/ exists r, r ∈ concat q /\ good (X j) ms (T r) /\ must l (T r)) ->
    (forall j l, X j l -> X (S j) l) ->
    length m = length ms -> agree (X 0) m ms ->
    regions_safe T nthr qs m /\
    forall m', regions T nthr qs m m' -> length m' = length ms /\ agree (X (length qs)) m' ms.
  Proof.
    induction qs as [|q qs IH]; intros X m Ht Hm Hmono Hl HX; simpl.
    - split; [exact I|]. intros m' H. inversion H; subst. auto.
    - destruct (region_settles T ms (X 0) (X 1) nthr q m Hl HX) as [Hsafe Hreg].
      + intros r Hr. destruct (Ht 0 q r eq_refl Hr) as [Hg|Ha]; [left; exact Hg|right].
        eapply wp_mono; [exact Ha|..]; simpl; auto.
        intros l _ [Hln Hx]. split; [exact Hln|]. intros [H|H]; apply Hx; auto.
      + intros l Hl1. destruct (Hm 0 q l eq_refl Hl1) as [H|(r & Hr & Hg & Hmu)].
        * left. apply HX, H.
        * right. exists r. split; [exact Hr|split; assumption].
      + assert (forall m1, region T nthr q m m1 ->
          regions_safe T nthr qs m1 /\ forall m', regions T nthr qs m1 m' ->
            length m' = length ms /\ agree (X (S (length qs))) m' ms) as Hrest.
        { intros m1 Hm1. destruct (Hreg m1 Hm1) as [Hl1 Ha1].
          apply (IH (fun j => X (S j)) m1).
          - intros j q' r Hq Hr. apply (Ht (S j) q' r Hq Hr).
          - intros j q' l Hq. apply (Hm (S j) q' l Hq).
          - intros j l. apply Hmono.
          - exact Hl1.
          - intros l Hl'. apply Ha1. right. exact Hl'. }
        split.
        * split; [exact Hsafe|]. intros m1 Hm1. apply Hrest, Hm1.
        * intros m' H. inversion H as [|q' qs' ma mb mc H1 H2]; subst. eapply Hrest; eauto.
  Qed.
End Regions.

Section System.
  Context {V : Type}.
  Notation P := (@P V).
  Variables (w : nat) (C : nat -> P (list V)).

  Fixpoint pwseg (base : nat) (seg : list V) : P unit :=
    match seg with [] => Ret tt | v :: seg' => Wr base v (pwseg (S base) seg') end.
  Definition T (r : nat) : P unit := pbind (C r) (pwseg (r * w)).

  (** entry [l] belongs to task [r] *)
  Definition own (r l : nat) : Prop := r * w <= l < r * w + w.

  Variable N : nat.
  Variable dep : nat -> nat -> Prop.
  (** task [r] is safe, only reads entries of tasks it depends on, and
      computes [w] values *)
  Definition kernel_ok (r : nat) : Prop :=
    r < N /\
    wp (fun l _ => l < N * w /\ exists r', dep r r' /\ own r' l) nowr (C r) (fun seg => length seg = w).
  (** the array is consistent with task [r] *)
  Definition fix_at (ms : list V) (r : nat) : Prop :=
    exists seg, exec ms (C r) = Ok (seg, ms) /\ forall k, k < w -> ms !! (r * w + k) = seg !! k.

  Definition reads (r l : nat) : Prop := l < N * w /\ exists r', dep r r' /\ own r' l.

  Lemma own_inj r r' l : own r l -> own r' l -> r = r'.
  Proof. unfold own. intros. nia. Qed.
  Lemma own_lt r l : r < N -> own r l -> l < N * w.
  Proof. unfold own. intros. nia. Qed.
  Lemma own_ex l : l < N * w -> exists r, r < N /\ own r l.
  Proof.
    intros H. destruct (decide (w = 0)) as [->|Hw]; [lia|].
    exists (l / w). unfold own.
    pose proof (Nat.div_mod l w Hw). pose proof (Nat.mod_upper_bound l w Hw).
    split; [apply Nat.div_lt_upper_bound; lia|lia].
  Qed.

  Lemma must_pwseg seg : forall base l, base <= l < base + length seg -> must l (pwseg base seg).
  Proof.
    induction seg as [|v seg IH]; intros base l H; simpl in *; [lia|].
    destruct (decide (base = l)); [auto|right; apply IH; lia].
  Qed.
  Lemma wp_pwseg rd (wr : nat -> V -> Prop) seg (Q : unit -> Prop) : forall base,
    (forall k v, seg !! k = Some v -> wr (base + k) v) -> Q tt -> wp rd wr (pwseg base seg) Q.
  Proof.
    induction seg as [|v seg IH]; intros base H HQ; simpl; [exact HQ|]. split.
    - specialize (H 0 v eq_refl). replace (base + 0) with base in H by lia. exact H.
    - apply IH; [|exact HQ]. intros k u Hk. specialize (H (S k) u Hk).
      replace (S base + k) with (base + S k) by lia. exact H.
  Qed.
  Lemma must_wp {A} (D : nat -> Prop) wr l (p : P A) (f : A -> P unit) Q :
    wp (fun l _ => D l) wr p Q -> (forall a, Q a -> must l (f a)) -> must l (pbind p f).
  Proof.
    induction p as [a|l' k IH|l' v k IH|]; simpl; auto.
    - intros [[v0 Hd] Hk] Hf v. apply IH; auto.
    - intros [_ Hk] Hf. right. auto.
  Qed.
  Lemma must_T r l : kernel_ok r -> own r l -> must l (T r).
  Proof.
    intros [Hr Hk] Ho. unfold T. eapply (must_wp (reads r)); [exact Hk|].
    intros seg Hs. apply must_pwseg. simpl in Hs. unfold own in Ho. lia.
  Qed.

  (** a pure computation gives the same result on memories that agree where it reads *)
  Lemma wp_det {A} (D : nat -> Prop) (m : list V) (p : P A) Q :
    wp (fun l _ => D l) nowr p Q -> (forall l, D l -> l < length m) ->
    exists a, exec m p = Ok (a, m) /\ Q a /\
      wp (fun l v => D l /\ m !! l = Some v) nowr p (fun a' => a' = a).
  Proof.
    intros Hwp HD. induction p as [a|l k IH|l v k IH|]; simpl in *.
    - eauto.
    - destruct Hwp as [[v0 Hd] Hk].
      destruct (lookup_lt_is_Some_2 m l (HD l Hd)) as [v Hv].
      assert (get m l = Ok v) as -> by (apply get_Some; exact Hv). simpl.
      destruct (IH v (Hk v Hd)) as (a & He & HQ & Hw). exists a. repeat split; auto.
      + eauto.
      + intros v' [_ Hv']. rewrite Hv in Hv'. injection Hv' as <-. exact Hw.
    - destruct Hwp as [[] _].
    - destruct Hwp.
  Qed.

  Lemma good_of_fix ms r : kernel_ok r -> length ms = N * w -> fix_at ms r -> good (reads r) ms (T r).
  Proof.
    intros [Hr Hk] Hl (seg & He & Hs).
    destruct (wp_det (reads r) ms (C r) _ Hk) as (seg' & He' & Hlen & Hw).
    { intros l [H _]. rewrite Hl. exact H. }
    rewrite He in He'. injection He' as <-.
    unfold good, T. apply wp_bind. eapply wp_mono; [exact Hw|..]; simpl.
    - intros l (v & H1 & H2). exists v. split; auto.
    - intros l v H _. exact H.
    - intros l v [].
    - intros seg'' ->. apply wp_pwseg; [|exact I]. intros k v Hkv. unfold wrS.
      rewrite Hs; [exact Hkv|]. rewrite <- Hlen. eapply lookup_lt_Some; eauto.
  Qed.
  Lemma avoids_T n (X : nat -> Prop) r :
    kernel_ok r -> n = N * w -> (forall l, own r l -> ~ X l) -> avoids n X (T r).
  Proof.
    intros [Hr Hk] Hn HX. unfold avoids, T. apply wp_bind. eapply wp_mono; [exact Hk|..]; simpl.
    - intros l (v & H1 & H2). exists v. lia.
    - intros l v _ (v' & H). exact H.
    - intros l v [].
    - intros seg Hs. apply wp_pwseg; [|exact I]. intros k v Hkv.
      apply lookup_lt_Some in Hkv. assert (own r (r * w + k)) as Ho by (unfold own; lia).
      split; [rewrite Hn; eapply own_lt; eauto|auto].
  Qed.
  Lemma fix_at_agree ms ms' r :
    kernel_ok r -> length ms = N * w -> length ms' = N * w ->
    fix_at ms r -> agree (fun l => reads r l \/ own r l) ms ms' -> fix_at ms' r.
  Proof.
    intros [Hr Hk] Hl Hl' (seg & He & Hs) Ha.
    destruct (wp_det (reads r) ms (C r) _ Hk) as (seg1 & He1 & Hlen & Hw).
    { intros l [H _]. lia. }
    rewrite He in He1. injection He1 as <-.
    destruct (exec_wp ms' (C r) (fun a => a = seg)) as (seg' & He' & ->).
    { eapply wp_mono; [exact Hw|..]; simpl.
      - intros l (v & H1 & H2). exists v. rewrite <- Ha; auto.
      - intros l v H2 (v' & H1 & _). split; [exact H1|]. rewrite Ha; auto.
      - intros l v [].
      - auto. }
    exists seg. split; [exact He'|]. intros k Hkw. rewrite <- Hs by done. symmetry. apply Ha.
    right. unfold own. lia.
  Qed.

  Lemma exec_pwseg seg : forall base m, base + length seg <= length m ->
    exists m', exec m (pwseg base seg) = Ok (tt, m') /\ length m' = length m /\
      (forall k, k < length seg -> m' !! (base + k) = seg !! k) /\
      (forall l, ~ (base <= l < base + length seg) -> m' !! l = m !! l).
  Proof.
    induction seg as [|v seg IH]; intros base m H; simpl in *.
    - exists m. repeat split; auto. intros; lia.
    - rewrite set_Ok by lia. simpl.
      destruct (IH (S base) (<[base:=v]> m)) as (m' & He & Hl & Hs & Hf); [rewrite insert_length; lia|].
      exists m'. rewrite insert_length in Hl. repeat split; auto.
      + intros [|k] Hk.
        * rewrite Hf by lia. replace (base + 0) with base by lia. apply list_lookup_insert. lia.
        * simpl. rewrite <- Hs by lia. f_equal. lia.
      + intros l Hl'. rewrite Hf by lia. apply list_lookup_insert_ne. lia.
  Qed.

  (** one task alone *)
  Lemma exec_T m r : kernel_ok r -> length m = N * w -> ~ dep r r ->
    exists m', exec m (T r) = Ok (tt, m') /\ length m' = N * w /\ fix_at m' r /\
      (forall l, ~ own r l -> m' !! l = m !! l).
  Proof.
    intros Hk Hl Hd. pose proof Hk as [Hr Hwp].
    destruct (wp_det (reads r) m (C r) _ Hwp) as (seg & He & Hlen & Hw).
    { intros l [H _]. lia. }
    unfold T. rewrite exec_bind, He. simpl.
    destruct (exec_pwseg seg (r * w) m) as (m' & He' & Hl' & Hs & Hf); [rewrite Hlen, Hl; nia|].
    exists m'. rewrite Hlen in *. split; [exact He'|]. split; [lia|]. split.
    - destruct (exec_wp m' (C r) (fun a => a = seg)) as (seg' & He2 & ->).
      { eapply wp_mono; [exact Hw|..]; simpl.
        - intros l (v & [H1 (r' & H2 & H3)] & Hv). exists v. rewrite Hf; auto.
          intros H4. assert (r = r') by (eapply own_inj; eauto). subst. auto.
        - intros l v Hv (v' & [H1 (r' & H2 & H3)] & Hv'). split; [split; eauto|].
          rewrite <- Hf; auto. intros H4. assert (r = r') by (eapply own_inj; eauto). subst. auto.
        - intros l v [].
        - auto. }
      exists seg. auto.
    - intros l Ho. apply Hf. exact Ho.
  Qed.

  (** ** Sequential execution in an order in which no task reads what a later (or
         the same) task writes *)
  Definition topological (rs : list nat) : Prop :=
    forall j j' r r', rs !! j = Some r -> rs !! j' = Some r' -> j <= j' -> ~ dep r r'.

  Lemma topological_tail r rs : topological (r :: rs) -> topological rs.
  Proof. intros H j j' a b H1 H2 H3. apply (H (S j) (S j') a b); simpl; auto. lia. Qed.

  Lemma seq_exists rs : forall m,
    NoDup rs -> (forall r, r ∈ rs -> kernel_ok r) -> topological rs -> length m = N * w ->
    exists ms, exec_seq T rs m = Ok ms /\ length ms = N * w /\
      (forall r, r ∈ rs -> fix_at ms r) /\
      (forall l, (forall r, r ∈ rs -> ~ own r l) -> ms !! l = m !! l).
  Proof.
    induction rs as [|r rs IH]; intros m Hnd Hk Ht Hl; cbn [exec_seq].
    - exists m. repeat split; auto. intros r Hr. apply elem_of_nil in Hr as [].
    - apply NoDup_cons in Hnd as [Hnr Hnd].
      assert (~ dep r r) as Hd by (apply (Ht 0 0); auto).
      destruct (exec_T m r) as (m1 & He & Hl1 & Hf1 & Hfr1); auto.
      { apply Hk. left. }
      rewrite He. simpl.
      destruct (IH m1) as (ms & Hes & Hls & Hfix & Hfr); auto.
      { intros r' Hr'. apply Hk. right; auto. }
      { eapply topological_tail; eauto. }
      exists ms. repeat split; auto.
      + intros r' Hr'. apply elem_of_cons in Hr' as [->|Hr']; [|auto].
        eapply fix_at_agree; [apply Hk; left|exact Hl1|exact Hls|exact Hf1|].
        intros l [[H1 (r2 & H2 & H3)]|H].
        * symmetry. apply Hfr. intros r' Hr' Ho.
          assert (r2 = r') by (eapply own_inj; eauto). subst r2.
          apply elem_of_list_lookup in Hr' as (j & Hj).
          apply (Ht 0 (S j) r r' eq_refl Hj); [lia|exact H2].
        * symmetry. apply Hfr. intros r' Hr' Ho. assert (r = r') by (eapply own_inj; eauto). subst. auto.
      + intros l Hn. rewrite Hfr, Hfr1; auto.
        * apply Hn. left.
        * intros r' Hr'. apply Hn. right; auto.
  Qed.

  (** the array consistent with all tasks is unique, and any sequential sweep in
      such an order reaches it from every initial content *)
  Lemma seq_unique rs ms m :
    NoDup rs -> (forall r, r ∈ rs -> kernel_ok r) -> topological rs ->
    length ms = N * w -> length m = N * w ->
    (forall r, r ∈ rs -> fix_at ms r) ->
    (forall l, (forall r, r ∈ rs -> ~ own r l) -> m !! l = ms !! l) ->
    exec_seq T rs m = Ok ms.
  Proof.
    intros Hnd Hk Ht Hls Hl Hfix Hext.
    set (X := fun j l => l < N * w /\ forall j' r, rs !! j' = Some r -> j <= j' -> ~ own r l).
    destruct (exec_seq_settles ms T rs X m) as (m' & He & Hl' & HX & _).
    - intros j r Hr. assert (r ∈ rs) as Hin by (apply elem_of_list_lookup; eauto).
      eapply good_mono; [apply good_of_fix; auto|].
      intros l [H1 (r' & H2 & H3)]. split; [exact H1|].
      intros j' r2 Hj' Hle Ho. assert (r2 = r') by (eapply own_inj; eauto). subst r2.
      apply (Ht j j' r r' Hr Hj' Hle H2).
    - intros j r l Hr [H1 H2].
      assert (own r l \/ ~ own r l) as [Ho|Ho] by (unfold own; lia).
      + right. apply must_T; auto. apply Hk. apply elem_of_list_lookup; eauto.
      + left. split; [exact H1|]. intros j' r' Hj' Hle.
        destruct (decide (j = j')) as [->|Hne]; [congruence|]. apply (H2 j' r' Hj'). lia.
    - intros l [H1 H2]. apply Hext. intros r Hr. apply elem_of_list_lookup in Hr as (j & Hj).
      eapply H2; eauto. lia.
    - lia.
    - rewrite He. f_equal. apply list_eq_lt; [lia|]. intros l Hlt. apply HX.
      split; [lia|]. intros j' r Hj' Hle. apply lookup_lt_Some in Hj'. lia.
  Qed.

  Lemma seq_idempotent rs m ms :
    NoDup rs -> (forall r, r ∈ rs -> kernel_ok r) -> topological rs -> length m = N * w ->
    exec_seq T rs m = Ok ms -> exec_seq T rs ms = Ok ms.
  Proof.
    intros Hnd Hk Ht Hl He.
    destruct (seq_exists rs m) as (ms' & He' & Hls & Hfix & _); auto.
    rewrite He in He'. injection He' as <-. apply seq_unique; auto.
  Qed.

  (** ** Any schedule: a consistent array stays as it is *)
  Lemma region_stable nthr q ms :
    length ms = N * w -> (forall r, r ∈ concat q -> kernel_ok r /\ fix_at ms r) ->
    region_safe T nthr q ms /\ forall m', region T nthr q ms m' -> m' = ms.
  Proof.
    intros Hl Hq.
    destruct (region_settles T ms (fun l => l < N * w) (fun _ => False) nthr q ms) as [Hs Hr].
    - reflexivity.
    - intros l _. reflexivity.
    - intros r Hr. destruct (Hq r Hr) as [Hk Hf]. left.
      eapply good_mono; [apply good_of_fix; auto|]. intros l [H _]; exact H.
    - intros l [].
    - split; [exact Hs|]. intros m' Hm'. destruct (Hr m' Hm') as [Hlen Ha].
      apply list_eq_lt; [lia|]. intros i Hi. apply Ha. left. lia.
  Qed.

  (** ** Independent tasks in one region: any schedule gives the sequential result *)
  Lemma region_independent nthr q m :
    NoDup (concat q) -> (forall r, r ∈ concat q -> kernel_ok r) ->
    (forall r r', r ∈ concat q -> r' ∈ concat q -> ~ dep r r') ->
    length m = N * w ->
    region_safe T nthr q m /\
    exists ms, exec_seq T (concat q) m = Ok ms /\ length ms = N * w /\
      forall m', region T nthr q m m' -> m' = ms.
  Proof.
    intros Hnd Hk Hi Hl.
    destruct (seq_exists (concat q) m) as (ms & He & Hls & Hfix & Hfr); auto.
    { intros j j' r r' H1 H2 _. apply Hi; apply elem_of_list_lookup; eauto. }
    destruct (region_settles T ms (fun l => l < N * w /\ forall r, r ∈ concat q -> ~ own r l)
                (fun l => exists r, r ∈ concat q /\ own r l) nthr q m) as [Hs Hr].
    - lia.
    - intros l [_ H]. symmetry. apply Hfr. exact H.
    - intros r Hr. left. eapply good_mono; [apply good_of_fix; auto|].
      intros l [H1 (r' & H2 & H3)]. split; [exact H1|]. intros r2 Hr2 Ho.
      assert (r2 = r') by (eapply own_inj; eauto). subst. eapply Hi; [exact Hr|exact Hr2|exact H2].
    - intros l (r & Hr & Ho). right. exists r. split; [exact Hr|]. split.
      + eapply good_mono; [apply good_of_fix; auto|].
        intros l' [H1 (r' & H2 & H3)]. split; [exact H1|]. intros r2 Hr2 Ho'.
        assert (r2 = r') by (eapply own_inj; eauto). subst. eapply Hi; [exact Hr|exact Hr2|exact H2].
      + apply must_T; auto.
    - split; [exact Hs|]. exists ms. split; [exact He|]. split; [exact Hls|].
      intros m' Hm'. destruct (Hr m' Hm') as [Hlen Ha].
      apply list_eq_lt; [lia|]. intros l Hlt. apply Ha.
      destruct (decide (Exists (fun r => own r l) (concat q))) as [E|E].
      + right. apply Exists_exists in E. exact E.
      + left. split; [lia|]. intros r Hr' Ho. apply E. apply Exists_exists. eauto.
  Qed.

  Lemma exec_seq_app rs1 rs2 m :
    exec_seq T (rs1 ++ rs2) m = let! m1 := exec_seq T rs1 m in exec_seq T rs2 m1.
  Proof.
    revert m; induction rs1 as [|r rs1 IH]; intros m; cbn [exec_seq app]; [reflexivity|].
    destruct (exec m (T r)) as [[? ?]| | |]; simpl; auto.
  Qed.

  (** a chain of regions of independent tasks (level scheduling) *)
  Lemma regions_independent nthr : forall qs m,
    (forall q, q ∈ qs -> NoDup (concat q) /\ (forall r, r ∈ concat q -> kernel_ok r) /\
       (forall r r', r ∈ concat q -> r' ∈ concat q -> ~ dep r r')) ->
    length m = N * w ->
    regions_safe T nthr qs m /\
    exists ms, exec_seq T (concat (map (@concat nat) qs)) m = Ok ms /\ length ms = N * w /\
      forall m', regions T nthr qs m m' -> m' = ms.
  Proof.
    induction qs as [|q qs IH]; intros m Hq Hl; simpl.
    - split; [exact I|]. exists m. repeat split; auto. intros m' H. inversion H; auto.
    - destruct (Hq q) as (Hnd & Hk & Hi); [left|].
      destruct (region_independent nthr q m Hnd Hk Hi Hl) as [Hs (m1 & He1 & Hl1 & Hu1)].
      destruct (IH m1) as [Hs2 (ms & He & Hls & Hu)]; [intros q' Hq'; apply Hq; right; auto|exact Hl1|].
      split.
      + split; [exact Hs|]. intros m1' H1'. rewrite (Hu1 m1' H1'). exact Hs2.
      + exists ms. rewrite exec_seq_app, He1. simpl. repeat split; auto.
        intros m' H. inversion H as [|a b c d e H1 H2]; subst.
        rewrite (Hu1 d H1) in H2. apply Hu, H2.
  Qed.

  (** ** Separated sweeps: after as many sweeps as the depth the result is exact *)
  Lemma sweeps_converge nthr (depth : nat -> nat) ms : forall qs m,
    length ms = N * w -> length m = N * w ->
    (forall r, r < N -> kernel_ok r /\ fix_at ms r) ->
    (forall r r', r < N -> dep r r' -> r' < N -> depth r' < depth r) ->
    (forall q, q ∈ qs -> forall r, r ∈ concat q <-> r < N) ->
    regions_safe T nthr qs m /\
    forall m', regions T nthr qs m m' ->
      length m' = N * w /\
      forall r l, r < N -> own r l -> depth r < length qs -> m' !! l = ms !! l.
  Proof.
    intros qs m Hls Hl Hk Hd Hq.
    set (X := fun j l => exists r, r < N /\ own r l /\ depth r < j).
    assert (forall j r, r < N -> depth r < S j -> good (X j) ms (T r)) as Hgood.
    { intros j r Hr Hdr. destruct (Hk r Hr) as [Hkr Hfr].
      eapply good_mono; [apply good_of_fix; eauto|].
      intros l [H1 (r' & H2 & H3)].
      assert (r' < N) as Hr'.
      { destruct (own_ex l H1) as (r2 & Hr2 & Ho2). assert (r' = r2) by (eapply own_inj; eauto). lia. }
      exists r'. repeat split; auto; try apply H3. specialize (Hd r r' Hr H2 Hr'). lia. }
    destruct (regions_settle T nthr ms qs X m) as [Hs Hr].
    - intros j q r Hjq Hr. apply elem_of_list_lookup_2 in Hjq. apply (Hq q Hjq) in Hr.
      destruct (decide (depth r < S j)) as [Hlt|Hge]; [left; apply Hgood; auto|right].
      apply avoids_T; [apply Hk; auto|auto|]. intros l Ho (r' & Hr' & Ho' & Hdr').
      assert (r = r') by (eapply own_inj; eauto). subst. lia.
    - intros j q l Hjq (r & Hr & Ho & Hdr). right. exists r.
      apply elem_of_list_lookup_2 in Hjq. split; [apply (Hq q Hjq); exact Hr|].
      split; [apply Hgood; auto|]. apply must_T; auto. apply Hk; auto.
    - intros j l (r & Hr & Ho & Hdr). exists r. repeat split; auto; apply Ho.
    - lia.
    - intros l (r & _ & _ & H). lia.
    - split; [exact Hs|]. intros m' Hm'. destruct (Hr m' Hm') as [Hlen Ha].
      split; [lia|]. intros r l Hr0 Ho Hdr. apply Ha. exists r. auto.
  Qed.
End System.

(** ** One thread: the machine is the sequential program *)
Section OneThread.
  Context {V : Type}.
  Variable T : nat -> @P V unit.

  Definition remaining (s : @mach V) : res (list V) :=
    match mt s with
    | [Idle] => exec_seq T (concat (mq s)) (mcur s)
    | [Busy p rs] => let! (_, m') := exec (mcur s) p in exec_seq T (rs ++ concat (mq s)) m'
    | _ => UB
    end.
  Lemma remaining_next c q m o :
    remaining (Mach q [next_task T c] m o) = exec_seq T (c ++ concat q) m.
  Proof. destruct c; reflexivity. Qed.
  (** with a single thread that reads the current values every step keeps the
      result that the rest of the sequential program will give *)
  Lemma one_thread_step s s' x :
    mt s = [x] -> step T (0, 0) s = Ok s' ->
    (exists x', mt s' = [x']) /\ remaining s' = remaining s.
  Proof.
    intros Et. unfold step, remaining. rewrite Et. simpl.
    destruct x as [|[[]|l k|l v k|] rs].
    - destruct (mq s) as [|c q] eqn:Eq.
      + intros [= <-]. rewrite Et. split; [eauto|]. rewrite Eq. reflexivity.
      + intros [= <-]. split; [simpl; eauto|]. apply remaining_next.
    - intros [= <-]. split; [simpl; eauto|]. apply remaining_next.
    - destruct (get (mcur s) l) as [v| | |] eqn:Eg; simpl; try discriminate.
      intros [= <-]. simpl. split; [eauto|]. rewrite ?Eg. reflexivity.
    - destruct (set (mcur s) l v) as [m'| | |] eqn:Eg; simpl; try discriminate.
      intros [= <-]. simpl. split; [eauto|]. rewrite ?Eg. reflexivity.
    - discriminate.
  Qed.
  Lemma one_thread_run n : forall s s' x,
    mt s = [x] -> run T (replicate n (0, 0)) s = Ok s' ->
    (exists x', mt s' = [x']) /\ remaining s' = remaining s.
  Proof.
    induction n as [|n IH]; intros s s' x Et H; cbn [replicate run] in H.
    - injection H as <-. eauto.
    - apply bind_Ok in H as (s1 & E1 & H).
      destruct (one_thread_step s s1 x Et E1) as ((x1 & Ex1) & Er1).
      destruct (IH s1 s' x1 Ex1 H) as (Hx & Er). split; [exact Hx|congruence].
  Qed.
  Theorem one_thread_sequential n q m s' :
    run T (replicate n (0, 0)) (minit 1 q m) = Ok s' -> mdone s' ->
    exec_seq T (concat q) m = Ok (mcur s').
  Proof.
    intros H [Hq Ht].
    destruct (one_thread_run n (minit 1 q m) s' Idle eq_refl H) as ((x & Ex) & Er).
    unfold remaining in Er. rewrite Ex, Hq in Er. rewrite Ex in Ht.
    apply Forall_cons in Ht as [<- _]. simpl in Er. congruence.
  Qed.
End OneThread.

(** ** The sequential execution is one of the schedules of any team of threads *)
Section SeqSchedule.
  Context {V : Type}.
  Variable T : nat -> @P V unit.

  Lemma run_app s1 s2 s : run T (s1 ++ s2) s = let! s' := run T s1 s in run T s2 s'.
  Proof.
    revert s; induction s1 as [|x s1 IH]; intros s; cbn [run app]; [reflexivity|].
    destruct (step T x s); simpl; auto.
  Qed.
  Lemma run_task (p : @P V unit) q rs ts : forall m o m',
    exec m p = Ok (tt, m') ->
    exists n o', run T (replicate n (0, 0)) (Mach q (Busy p rs :: ts) m o) =
      Ok (Mach q (next_task T rs :: ts) m' o').
  Proof.
    induction p as [[]|l k IH|l v k IH|]; intros m o m' H; cbn [exec] in H.
    - injection H as <-. exists 1, o. reflexivity.
    - apply bind_Ok in H as (v & Hg & H). destruct (IH v m o m' H) as (n & o' & Hr).
      exists (S n), o'. cbn [replicate run]. unfold step. simpl. rewrite Hg. simpl. exact Hr.
    - apply bind_Ok in H as (m1 & Hs & H). destruct (IH m1 (m :: o) m' H) as (n & o' & Hr).
      exists (S n), o'. cbn [replicate run]. unfold step. simpl. rewrite Hs. simpl. exact Hr.
    - discriminate.
  Qed.
  Lemma run_chunk rs : forall q ts m o m',
    exec_seq T rs m = Ok m' ->
    exists n o', run T (replicate n (0, 0)) (Mach q (next_task T rs :: ts) m o) =
      Ok (Mach q (Idle :: ts) m' o').
  Proof.
    induction rs as [|r rs IH]; intros q ts m o m' H; cbn [exec_seq] in H.
    - injection H as <-. exists 0, o. reflexivity.
    - apply bind_Ok in H as ([[] m1] & H1 & H2). simpl next_task.
      destruct (run_task (T r) q rs ts m o m1 H1) as (n1 & o1 & Hr1).
      destruct (IH q ts m1 o1 m' H2) as (n2 & o2 & Hr2).
      exists (n1 + n2), o2. rewrite replicate_add, run_app, Hr1. exact Hr2.
  Qed.
  Lemma run_queue q : forall ts m o m',
    exec_seq T (concat q) m = Ok m' ->
    exists n o', run T (replicate n (0, 0)) (Mach q (Idle :: ts) m o) =
      Ok (Mach [] (Idle :: ts) m' o').
  Proof.
    induction q as [|c q IH]; intros ts m o m' H.
    - injection H as <-. exists 0, o. reflexivity.
    - simpl concat in H.
      assert (exists m1, exec_seq T c m = Ok m1 /\ exec_seq T (concat q) m1 = Ok m') as (m1 & H1 & H2).
      { revert m H. clear. induction c as [|r c IH]; intros m H; cbn [exec_seq app] in *; [eauto|].
        apply bind_Ok in H as ([[] m1] & E1 & H). rewrite E1. simpl. apply IH, H. }
      destruct (run_chunk c q ts m o m1 H1) as (n1 & o1 & Hr1).
      destruct (IH ts m1 o1 m' H2) as (n2 & o2 & Hr2).
      exists (S (n1 + n2)), o2. cbn [replicate run].
      unfold step at 1. simpl. rewrite replicate_add, run_app, Hr1. exact Hr2.
  Qed.
  Theorem sequential_is_a_schedule nthr q m m' :
    1 <= nthr -> exec_seq T (concat q) m = Ok m' -> region T nthr q m m'.
  Proof.
    intros Hn H. destruct nthr as [|n]; [lia|].
    destruct (run_queue q (replicate n Idle) m [] m' H) as (k & o' & Hr).
    exists (replicate k (0, 0)), (Mach [] (Idle :: replicate n Idle) m' o').
    split; [exact Hr|]. split; [|reflexivity]. split; [reflexivity|].
    simpl. constructor; [reflexivity|]. apply Forall_replicate. reflexivity.
  Qed.
End SeqSchedule.
