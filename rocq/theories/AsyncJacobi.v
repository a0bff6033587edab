(** * AsyncJacobi: a schedule in which all rows are computed from the initial
    contents and stored afterwards *)
From Verif Require Import Base Async AsyncTheory AsyncSystem AsyncSweeps.

Section Simultaneous.
  Context {V : Type}.
  Variables (w : nat) (C : nat -> @P V (list V)).
  Notation T := (T w C).

  Lemma run_pure_at {A} (p : @P V A) (f : A -> @P V unit) t : forall q ts rs m o a,
    ts !! t = Some (Busy (pbind p f) rs) -> writefree p -> exec m p = Ok (a, m) ->
    exists n, run T (replicate n (t, 0)) (Mach q ts m o) = Ok (Mach q (<[t := Busy (f a) rs]> ts) m o).
  Proof.
    induction p as [b|l k IH|l v k IH|]; intros q ts rs m o a Ht Hw He; cbn [exec] in He; simpl in Hw.
    - injection He as <-. exists 0. simpl. rewrite list_insert_id; auto.
    - apply bind_Ok in He as (v & Hg & He).
      destruct (IH v q (<[t := Busy (pbind (k v) f) rs]> ts) rs m o a) as (n & Hn); auto.
      { apply list_lookup_insert. eapply lookup_lt_Some; eauto. }
      exists (S n). cbn [replicate run]. unfold step at 1. cbn [mt mq mcur mold]. rewrite Ht. cbn [pbind].
      simpl. rewrite Hg. simpl. rewrite Hn. rewrite list_insert_insert. reflexivity.
    - destruct Hw.
    - discriminate.
  Qed.
  Lemma run_pwseg_at seg t : forall base q ts m o m', ts !! t = Some (Busy (pwseg base seg) []) ->
    exec m (pwseg base seg) = Ok (tt, m') ->
    exists n o', run T (replicate n (t, 0)) (Mach q ts m o) = Ok (Mach q (<[t := Idle]> ts) m' o').
  Proof.
    induction seg as [|v seg IH]; intros base q ts m o m' Ht He; cbn [exec pwseg] in He.
    - injection He as <-. exists 1, o. cbn [replicate run]. unfold step at 1. cbn [mt mq mcur mold]. rewrite Ht. reflexivity.
    - apply bind_Ok in He as (m1 & Hs & He).
      destruct (IH (S base) q (<[t := Busy (pwseg (S base) seg) []]> ts) m1 (m :: o) m') as (n & o' & Hn); auto.
      { apply list_lookup_insert. eapply lookup_lt_Some; eauto. }
      exists (S n), o'. cbn [replicate run]. unfold step at 1. cbn [mt mq mcur mold]. rewrite Ht. cbn [pwseg].
      rewrite Hs. simpl. rewrite Hn. rewrite list_insert_insert. reflexivity.
  Qed.

  Variable sg : nat -> list V.
  Definition waiting (r : nat) : @tstate V := Busy (pwseg (r * w) (sg r)) [].
  Lemma all_fetch m o : forall rs done j, length rs <= j ->
    (forall r, r ∈ rs -> writefree (C r) /\ exec m (C r) = Ok (sg r, m)) ->
    exists sched, Forall (fun x => snd x = 0) sched /\
      run T sched (Mach ((fun r => [r]) <$> rs) (done ++ replicate j Idle) m o) =
      Ok (Mach [] (done ++ (waiting <$> rs) ++ replicate (j - length rs) Idle) m o).
  Proof.
    induction rs as [|r rs IH]; intros done j Hj Hr.
    - exists []. split; [constructor|]. simpl. rewrite Nat.sub_0_r. reflexivity.
    - destruct j as [|j]; [simpl in Hj; lia|]. simpl in Hj.
      destruct (Hr r ltac:(left)) as [Hw He].
      set (ts1 := done ++ Busy (T r) [] :: replicate j Idle).
      assert (ts1 !! length done = Some (Busy (pbind (C r) (pwseg (r * w))) [])) as Ht1.
      { unfold ts1. rewrite lookup_app_r, Nat.sub_diag by lia. reflexivity. }
      destruct (run_pure_at (C r) (pwseg (r * w)) (length done) ((fun r => [r]) <$> rs) ts1 [] m o (sg r) Ht1 Hw He) as (n1 & Hn1).
      destruct (IH (done ++ [waiting r]) j ltac:(lia)) as (s2 & Hs2 & Hn2).
      { intros r' Hr'. apply Hr. right. exact Hr'. }
      exists ((length done, 0) :: replicate n1 (length done, 0) ++ s2). split.
      { constructor; [reflexivity|]. apply Forall_app. split; [apply Forall_replicate; reflexivity|exact Hs2]. }
      cbn [run]. unfold step at 1. cbn [mt mq mcur mold fmap list_fmap replicate].
      rewrite lookup_app_r, Nat.sub_diag by lia. cbn [lookup list_lookup bind].
      assert (<[length done:=next_task T [r]]> (done ++ Idle :: replicate j Idle) = ts1) as ->.
      { unfold ts1. rewrite insert_app_r_alt by lia. rewrite Nat.sub_diag. reflexivity. }
      rewrite run_app, Hn1. cbn [bind].
      assert (<[length done:=Busy (pwseg (r * w) (sg r)) []]> ts1 = (done ++ [waiting r]) ++ replicate j Idle) as ->.
      { unfold ts1. rewrite insert_app_r_alt by lia. rewrite Nat.sub_diag. simpl. rewrite <- app_assoc. reflexivity. }
      change ((fix go (l : list nat) : list (list nat) := match l with [] => [] | x :: l0 => [x] :: go l0 end) rs) with ((fun r => [r]) <$> rs).
      rewrite Hn2. rewrite <- app_assoc. reflexivity.
  Qed.
  Lemma all_store : forall rs k rest m o m',
    exec_seq (fun r => pwseg (r * w) (sg r)) rs m = Ok m' ->
    exists sched o', Forall (fun x => snd x = 0) sched /\
      run T sched (Mach [] (replicate k Idle ++ (waiting <$> rs) ++ rest) m o) =
      Ok (Mach [] (replicate k Idle ++ replicate (length rs) Idle ++ rest) m' o').
  Proof.
    induction rs as [|r rs IH]; intros k rest m o m' He.
    - injection He as <-. exists [], o. split; [constructor|]. reflexivity.
    - cbn [exec_seq] in He. apply bind_Ok in He as ([[] m1] & H1 & H2).
      set (ts := replicate k Idle ++ (waiting <$> (r :: rs)) ++ rest).
      assert (ts !! k = Some (Busy (pwseg (r * w) (sg r)) [])) as Ht.
      { unfold ts. rewrite lookup_app_r by (rewrite replicate_length; lia). rewrite replicate_length, Nat.sub_diag. reflexivity. }
      destruct (run_pwseg_at (sg r) k (r * w) [] ts m o m1 Ht H1) as (n1 & o1 & Hn1).
      destruct (IH (S k) rest m1 o1 m' H2) as (s2 & o2 & Hs2 & Hn2).
      exists (replicate n1 (k, 0) ++ s2), o2. split; [apply Forall_app; split; [apply Forall_replicate; reflexivity|exact Hs2]|].
      rewrite run_app, Hn1. cbn [bind].
      assert (<[k:=Idle]> ts = replicate (S k) Idle ++ (waiting <$> rs) ++ rest) as ->.
      { unfold ts. rewrite insert_app_r_alt by (rewrite replicate_length; lia). rewrite replicate_length, Nat.sub_diag. simpl.
        change (Idle :: replicate k Idle ++ (waiting <$> rs) ++ rest) with (replicate (S k) (@Idle V) ++ (waiting <$> rs) ++ rest).
        rewrite replicate_S_end, <- app_assoc. reflexivity. }
      rewrite Hn2. f_equal. f_equal. rewrite replicate_S_end, <- app_assoc. reflexivity.
  Qed.
  (** With a thread per row, the region may compute every row from the initial
      contents: a step of Jacobi's method. *)
  Theorem simultaneous_rows nthr rs m m' : length rs <= nthr ->
    (forall r, r ∈ rs -> writefree (C r) /\ exec m (C r) = Ok (sg r, m)) ->
    exec_seq (fun r => pwseg (r * w) (sg r)) rs m = Ok m' ->
    region_sc T nthr ((fun r => [r]) <$> rs) m m'.
  Proof.
    intros Hn Hr He.
    destruct (all_fetch m [] rs [] nthr Hn Hr) as (s1 & Hs1 & Hn1).
    destruct (all_store rs 0 (replicate (nthr - length rs) Idle) m [] m' He) as (s2 & o2 & Hs2 & Hn2).
    exists (s1 ++ s2), (Mach [] (replicate 0 Idle ++ replicate (length rs) Idle ++ replicate (nthr - length rs) Idle) m' o2).
    split; [apply Forall_app; auto|]. split; [|split; [|reflexivity]].
    - unfold minit. rewrite run_app. cbn [app] in Hn1. rewrite Hn1. cbn [bind]. exact Hn2.
    - split; [reflexivity|]. cbn [mt replicate app]. apply Forall_app. split; apply Forall_replicate; reflexivity.
  Qed.
End Simultaneous.
