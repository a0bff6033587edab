(** * AsyncSweeps: several sweeps over a system of kernels *)
From Verif Require Import Base Async AsyncTheory AsyncSystem Nd.

(** ** Chunks cut the iteration range, nothing else *)
Lemma concat_chunks_fuel c : forall n (l : list nat),
  1 <= c -> length l <= n -> concat (chunks_fuel n c l) = l.
Proof.
  induction n as [|n IH]; intros l Hc Hl; simpl.
  - destruct l; [reflexivity|simpl in Hl; lia].
  - destruct l as [|a l]; [reflexivity|]. cbn [concat]. rewrite IH; [apply take_drop|lia|].
    rewrite drop_length. simpl in *. lia.
Qed.
Lemma concat_chunks c (l : list nat) : 1 <= c -> concat (chunks c l) = l.
Proof. intros H. apply concat_chunks_fuel; auto. Qed.
Lemma concat_concat {A} (ll : list (list (list A))) : concat (concat ll) = concat (map (@concat A) ll).
Proof. induction ll as [|l ll IH]; simpl; [reflexivity|]. rewrite concat_app, IH. reflexivity. Qed.
Lemma concat_nowait n c (l : list nat) :
  1 <= c -> concat (nowait_sweeps n c l) = concat (replicate n l).
Proof.
  intros Hc. unfold nowait_sweeps. induction n as [|n IH]; simpl; [reflexivity|].
  rewrite concat_app, IH, concat_chunks by done. reflexivity.
Qed.
Lemma elem_of_concat_replicate n (l : list nat) r : r ∈ concat (replicate n l) -> r ∈ l.
Proof.
  induction n as [|n IH]; simpl; intros H; [apply elem_of_nil in H as []|].
  apply elem_of_app in H as [H|H]; auto.
Qed.

(** sequentially consistent schedules: every read sees the latest value *)
Definition region_sc {V} (T : nat -> @P V unit) (nthr : nat) (q : list (list nat)) (m m' : list V) : Prop :=
  exists sched s', Forall (fun x : nat * nat => snd x = 0) sched /\
    run T sched (minit nthr q m) = Ok s' /\ mdone s' /\ mcur s' = m'.
Lemma region_sc_region {V} (T : nat -> @P V unit) nthr q m m' : region_sc T nthr q m m' -> region T nthr q m m'.
Proof. intros (sched & s' & _ & H). exists sched, s'. exact H. Qed.

Section Sweeps.
  Context {V : Type}.
  Variables (w : nat) (C : nat -> @P V (list V)) (N : nat) (dep : nat -> nat -> Prop).
  Notation T := (T w C).
  Notation kernel_ok := (kernel_ok w C N dep).
  Notation fix_at := (fix_at w C).

  (** Rows in an order in which each row comes after those it depends on:
      any positive number of sequential sweeps gives the one consistent array,
      whatever the initial contents, number of sweeps and chunk size. *)
  Lemma sweeps_sequential (order : list nat) :
    order ≡ₚ seq 0 N -> (forall r, r < N -> kernel_ok r) -> topological dep order ->
    (exists m0 : list V, length m0 = N * w) ->
    exists ms, length ms = N * w /\ (forall r, r < N -> fix_at ms r) /\
      (forall m n c, length m = N * w -> 1 <= n -> 1 <= c ->
         exec_seq T (concat (nowait_sweeps n c order)) m = Ok ms) /\
      (forall m, length m = N * w -> (forall r, r < N -> fix_at m r) -> m = ms).
  Proof.
    intros Hp Hk Ht (m0 & Hm0).
    assert (forall r, r ∈ order <-> r < N) as Hin.
    { intros r. rewrite Hp. rewrite elem_of_seq. lia. }
    assert (NoDup order) as Hnd by (rewrite Hp; apply NoDup_seq).
    destruct (seq_exists w C N dep order m0) as (ms & He & Hl & Hf & _); auto.
    { intros r Hr. apply Hk, Hin, Hr. }
    assert (forall m, length m = N * w -> exec_seq T order m = Ok ms) as Hu.
    { intros m Hm. apply (seq_unique w C N dep); auto.
      - intros r Hr. apply Hk, Hin, Hr.
      - intros l Hno. rewrite !lookup_ge_None_2; [reflexivity| |].
        + destruct (decide (length ms <= l)) as [|Hlt]; [done|exfalso].
          destruct (own_ex w N l) as (r & Hr & Ho); [lia|]. apply (Hno r); [apply Hin; auto|exact Ho].
        + destruct (decide (length m <= l)) as [|Hlt]; [done|exfalso].
          destruct (own_ex w N l) as (r & Hr & Ho); [lia|]. apply (Hno r); [apply Hin; auto|exact Ho]. }
    exists ms. repeat split; auto.
    - intros r Hr. apply Hf, Hin, Hr.
    - intros m n c Hm Hn Hc. rewrite concat_nowait by done.
      destruct n as [|n]; [lia|]. cbn [replicate concat].
      rewrite exec_seq_app, (Hu m Hm). simpl. clear - Hu Hl.
      induction n as [|n IH]; [reflexivity|]. cbn [replicate concat].
      rewrite exec_seq_app, (Hu ms Hl). simpl. exact IH.
    - intros m Hm Hfm. 
      assert (exec_seq T order m0 = Ok m) as He2.
      { apply (seq_unique w C N dep); auto.
        - intros r Hr. apply Hk, Hin, Hr.
        - intros r Hr. apply Hfm, Hin, Hr.
        - intros l Hno. rewrite !lookup_ge_None_2; [reflexivity| |].
          + destruct (decide (length m <= l)) as [|Hlt]; [done|exfalso].
            destruct (own_ex w N l) as (r & Hr & Ho); [lia|]. apply (Hno r); [apply Hin; auto|exact Ho].
          + destruct (decide (length m0 <= l)) as [|Hlt]; [done|exfalso].
            destruct (own_ex w N l) as (r & Hr & Ho); [lia|]. apply (Hno r); [apply Hin; auto|exact Ho]. }
      rewrite (Hu m0 Hm0) in He2. congruence.
  Qed.

  (** [kernel_ok] tasks never go wrong, in any order *)
  Lemma exec_seq_total rs : forall m,
    (forall r, r ∈ rs -> kernel_ok r) -> length m = N * w ->
    exists ms, exec_seq T rs m = Ok ms /\ length ms = N * w.
  Proof.
    induction rs as [|r rs IH]; intros m Hk Hl; cbn [exec_seq]; [eauto|].
    destruct (exec_total (N * w) (T r) (fun _ => True) m) as ([] & m1 & E & Hl1 & _); auto.
    - eapply wp_mono; [apply (avoids_T w C N dep (N * w) (fun _ => False) r); auto|..]; simpl; auto.
      + apply Hk. left.
      + intros l v [H _]. exact H.
    - rewrite E. simpl. apply IH; auto. intros r' Hr'. apply Hk. right; auto.
  Qed.
  (** a task that depends on nothing: its entries are right after any schedule *)
  Lemma region_independent_rows nthr q ms m :
    length m = N * w -> length ms = N * w ->
    (forall r, r ∈ concat q -> kernel_ok r) ->
    (forall r, r ∈ concat q -> (forall r', ~ dep r r') -> fix_at ms r) ->
    region_safe T nthr q m /\
    forall m', region T nthr q m m' -> length m' = N * w /\
      forall r l, r ∈ concat q -> (forall r', ~ dep r r') -> own w r l -> m' !! l = ms !! l.
  Proof.
    intros Hl Hls Hk Hf.
    set (Y := fun l => exists r, r ∈ concat q /\ (forall r', ~ dep r r') /\ own w r l).
    assert (forall r, r ∈ concat q -> (forall r', ~ dep r r') -> good (fun _ => False) ms (T r)) as Hg.
    { intros r Hr Hd. eapply good_mono; [apply (good_of_fix w C N dep); auto|].
      intros l [_ (r' & H & _)]. exact (Hd r' H). }
    assert (forall r : nat, (forall r', ~ dep r r') \/ ~ (forall r', ~ dep r r') -> True) as _ by auto.
    assert (region_safe T nthr q m) as Hsafe.
    { destruct (region_settles T ms (fun _ => False) (fun _ => False) nthr q m) as [Hs _]; auto.
      - lia.
      - intros l [].
      - intros r Hr. right. eapply wp_mono; [apply (avoids_T w C N dep (length ms) (fun _ => False) r); auto|..]; simpl; auto.
        intros l v [H _]. split; [exact H|]. intros [[]|[]].
      - intros l []. }
    split; [exact Hsafe|]. intros m' Hm'.
    assert (length m' = N * w) as Hl'.
    { destruct (region_settles T ms (fun _ => False) (fun _ => False) nthr q m) as [_ Hr]; auto.
      - lia.
      - intros l [].
      - intros r Hr. right. eapply wp_mono; [apply (avoids_T w C N dep (length ms) (fun _ => False) r); auto|..]; simpl; auto.
        intros l v [H _]. split; [exact H|]. intros [[]|[]].
      - intros l [].
      - destruct (Hr m' Hm'). lia. }
    split; [exact Hl'|]. intros r0 l0 Hr0 Hd0 Ho0.
    destruct (region_settles T ms (fun _ => False) (fun l => own w r0 l) nthr q m) as [_ Hreg]; auto.
    - lia.
    - intros l [].
    - intros r Hr. destruct (decide (r = r0)) as [->|Hne]; [left; auto|right].
      apply (avoids_T w C N dep); auto. intros l Ho [[]|Ho'].
      apply Hne. eapply own_inj; eauto.
    - intros l Ho. right. exists r0. split; [exact Hr0|]. split; [auto|].
      apply (must_T w C N dep); auto.
    - destruct (Hreg m' Hm') as [_ Ha]. apply Ha. right. exact Ho0.
  Qed.

  (** ** A stalled thread: a legal, sequentially consistent schedule in which one
      task of the first chunks computes from the initial contents and stores at
      the very end *)
  Fixpoint writefree {A} (p : @P V A) : Prop :=
    match p with Ret _ => True | Rd _ k => forall v, writefree (k v) | Wr _ _ _ => False | Bad => True end.
  Lemma run_pure {A} (p : @P V A) (f : A -> @P V unit) q x rs m o a :
    writefree p -> exec m p = Ok (a, m) ->
    exists n, run T (replicate n (1, 0)) (Mach q [x; Busy (pbind p f) rs] m o) =
      Ok (Mach q [x; Busy (f a) rs] m o).
  Proof.
    induction p as [b|l k IH|l v k IH|]; intros Hw He; cbn [exec] in He; simpl in Hw.
    - injection He as <-. exists 0. reflexivity.
    - apply bind_Ok in He as (v & Hg & He). destruct (IH v (Hw v) He) as (n & Hn).
      exists (S n). cbn [replicate run]. unfold step at 1. simpl. rewrite Hg. simpl. exact Hn.
    - destruct Hw.
    - discriminate.
  Qed.
  Lemma run_pwseg seg : forall base q x m o m',
    exec m (pwseg base seg) = Ok (tt, m') ->
    exists n o', run T (replicate n (1, 0)) (Mach q [x; Busy (pwseg base seg) []] m o) =
      Ok (Mach q [x; Idle] m' o').
  Proof.
    induction seg as [|v seg IH]; intros base q x m o m' He; cbn [exec pwseg] in He.
    - injection He as <-. exists 1, o. reflexivity.
    - apply bind_Ok in He as (m1 & Hs & He).
      destruct (IH (S base) q x m1 (m :: o) m' He) as (n & o' & Hn).
      exists (S n), o'. cbn [replicate run]. unfold step at 1. simpl. rewrite Hs. simpl. exact Hn.
  Qed.
  Lemma stalled_task c0 r rest m seg m1 m' :
    c0 <> [] -> writefree (C r) -> exec m (C r) = Ok (seg, m) ->
    exec_seq T (c0 ++ concat rest) m = Ok m1 ->
    exec m1 (pwseg (r * w) seg) = Ok (tt, m') ->
    region_sc T 2 (c0 :: [r] :: rest) m m'.
  Proof.
    intros Hc0 Hw He Hs Hwr.
    rewrite exec_seq_app in Hs. apply bind_Ok in Hs as (m0 & Hs0 & Hs).
    destruct (run_pure (C r) (pwseg (r * w)) rest (next_task T c0) [] m [] seg Hw He) as (n1 & H1).
    destruct (run_chunk T c0 rest [Busy (pwseg (r * w) seg) []] m [] m0 Hs0) as (n2 & o2 & H2).
    destruct (run_queue T rest [Busy (pwseg (r * w) seg) []] m0 o2 m1 Hs) as (n3 & o3 & H3).
    destruct (run_pwseg seg (r * w) [] Idle m1 o3 m' Hwr) as (n4 & o4 & H4).
    exists ((0, 0) :: (1, 0) :: replicate n1 (1, 0) ++ replicate n2 (0, 0) ++ replicate n3 (0, 0) ++ replicate n4 (1, 0)).
    exists (Mach [] [Idle; Idle] m' o4). split; [|split; [|split; [|reflexivity]]].
    - repeat (apply Forall_cons; split; [reflexivity|]).
      repeat (apply Forall_app; split); apply Forall_replicate; reflexivity.
    - cbn [run]. unfold step at 1. simpl mt. simpl.
      unfold minit. cbn [replicate]. simpl.
      assert (run T (replicate n1 (1, 0) ++ replicate n2 (0, 0) ++ replicate n3 (0, 0) ++ replicate n4 (1, 0))
                (Mach rest [next_task T c0; Busy (T r) []] m []) = Ok (Mach [] [Idle; Idle] m' o4)) as Hrun.
      { change (T r) with (pbind (C r) (pwseg (r * w))). rewrite run_app, H1. simpl.
        rewrite run_app, H2. simpl. rewrite run_app, H3. simpl. exact H4. }
      exact Hrun.
    - split; [reflexivity|]. simpl. repeat constructor.
  Qed.
End Sweeps.
