(** * AsyncFlat: a task made of several smaller ones

    A task (a matrix row) that runs a list of smaller tasks (its entries) in order
    behaves like these tasks queued one after the other in the same chunk. *)
From Verif Require Import Base Async AsyncTheory AsyncSystem Nd.

Section Flat.
  Context {V : Type}.
  Notation P := (@P V).

  (** one after the other, in one thread *)
  Fixpoint pseq (TE : nat -> P unit) (l : list nat) : P unit :=
    match l with [] => Ret tt | e :: l' => pbind (TE e) (fun _ => pseq TE l') end.
  Lemma pseq_ext (TE TE' : nat -> P unit) l : (forall e, e ∈ l -> TE e = TE' e) -> pseq TE l = pseq TE' l.
  Proof.
    induction l as [|e l IH]; intros H; simpl; [reflexivity|].
    rewrite (H e) by left. rewrite IH; [reflexivity|]. intros; apply H; right; auto.
  Qed.
  Lemma exec_pseq (TE : nat -> P unit) l : forall m,
    exec m (pseq TE l) = let! m' := exec_seq TE l m in Ok (tt, m').
  Proof.
    induction l as [|e l IH]; intros m; simpl; [reflexivity|].
    rewrite exec_bind. destruct (exec m (TE e)) as [[[] m1]| | |]; simpl; auto.
  Qed.

  Variables (TR TE : nat -> P unit) (ents : nat -> list nat).
  Definition flat (rs : list nat) : list nat := concat (map ents rs).
  Definition Hrow (rs : list nat) : Prop := forall r, r ∈ rs -> TR r = pseq TE (ents r).

  Lemma exec_seq_app' (T0 : nat -> P unit) l1 l2 m : exec_seq T0 (l1 ++ l2) m = let! m1 := exec_seq T0 l1 m in exec_seq T0 l2 m1.
  Proof.
    revert m. induction l1 as [|r l1 IH]; intros m; simpl; [reflexivity|].
    destruct (exec m (T0 r)) as [[[] m1]| | |]; simpl; auto.
  Qed.
  Lemma exec_seq_flat rs : forall m, Hrow rs -> exec_seq TR rs m = exec_seq TE (flat rs) m.
  Proof.
    induction rs as [|r rs IH]; intros m H; simpl; [reflexivity|].
    unfold flat. simpl. rewrite exec_seq_app'. rewrite (H r) by left. rewrite exec_pseq.
    destruct (exec_seq TE (ents r) m) as [m1| | |]; simpl; auto. apply IH. intros x Hx. apply H. right; auto.
  Qed.

  Definition rel (x x' : @tstate V) : Prop :=
    match x with
    | Idle => x' = Idle
    | Busy p rs => Hrow rs /\
        ((exists p' l, x' = Busy p' (l ++ flat rs) /\ p = pbind p' (fun _ => pseq TE l)) \/
         (p = Ret tt /\ x' = next_task TE (flat rs)))
    end.
  Definition mrel (s s' : @mach V) : Prop :=
    Forall Hrow (mq s) /\ mq s' = map flat (mq s) /\ Forall2 rel (mt s) (mt s') /\ mcur s' = mcur s /\ mold s' = mold s.

  Lemma rel_next rs : Hrow rs -> rel (next_task TR rs) (next_task TE (flat rs)).
  Proof.
    destruct rs as [|r rs]; intros H; simpl; [reflexivity|].
    assert (Hrow rs) as Hr by (intros x Hx; apply H; right; auto).
    split; [exact Hr|]. rewrite (H r) by left. unfold flat. simpl.
    destruct (ents r) as [|e l]; simpl; [right; auto|].
    left. exists (TE e), l. auto.
  Qed.

  (** let the entry machine finish entries that are over, in thread [t] *)
  Lemma catch_up q m o (ts : list (@tstate V)) t rs p : t < length ts -> forall l p',
    p = pbind p' (fun _ => pseq TE l) ->
    exists n p'' l'', run TE (replicate n (t, 0)) (Mach q (<[t := Busy p' (l ++ flat rs)]> ts) m o) =
        Ok (Mach q (<[t := Busy p'' (l'' ++ flat rs)]> ts) m o) /\
      p = pbind p'' (fun _ => pseq TE l'') /\ (l'' = [] \/ forall a, p'' <> Ret a).
  Proof.
    intros Ht. induction l as [|e l IH]; intros p' Hp.
    - exists 0, p', []. auto.
    - destruct p' as [[]|ll k|ll v k|].
      2-4: (eexists 0, _, (e :: l); split; [reflexivity|split; [exact Hp|right; discriminate]]).
      destruct (IH (TE e)) as (n & p'' & l'' & Hn & Hp'' & Hl'').
      { exact Hp. }
      exists (S n), p'', l''. split; [|auto]. cbn [replicate run]. unfold step. simpl mt.
      rewrite list_lookup_insert by exact Ht. simpl. rewrite list_insert_insert. exact Hn.
  Qed.

  Lemma insert_rel (ts ts' : list (@tstate V)) t x x' :
    Forall2 rel ts ts' -> rel x x' -> Forall2 rel (<[t := x]> ts) (<[t := x']> ts').
  Proof. intros H Hx. apply Forall2_insert; auto. Qed.

  Lemma sim_step s s' t pick : mrel s s' ->
    match step TR (t, pick) s with
    | Ok s1 => exists sched s1', run TE sched s' = Ok s1' /\ mrel s1 s1'
    | UB => exists sched, run TE sched s' = UB
    | _ => False
    end.
  Proof.
    intros (Hq & Hq' & Ht & Hc & Ho). destruct s as [q ts m o], s' as [q' ts' m' o']. simpl in *. subst q' m' o'.
    unfold step. simpl.
    destruct (ts !! t) as [x|] eqn:Ex.
    2: { exists [], (Mach (map flat q) ts' m o). split; [reflexivity|]. split; auto. }
    destruct (Forall2_lookup_l _ _ _ _ _ Ht Ex) as (x' & Ex' & Hx).
    assert (t < length ts') as Htl by (eapply lookup_lt_Some; eauto).
    destruct x as [|p rs].
    - simpl in Hx. subst x'. destruct q as [|c q].
      + exists [], (Mach [] ts' m o). split; [reflexivity|]. split; auto.
      + inversion Hq as [|? ? Hc Hq2]; subst.
        exists [(t, 0)], (Mach (map flat q) (<[t := next_task TE (flat c)]> ts') m o). split.
        * cbn [run]. unfold step. simpl. rewrite Ex'. reflexivity.
        * split; [exact Hq2|]. split; [reflexivity|]. split; [|auto]. apply insert_rel; [exact Ht|]. apply rel_next; exact Hc.
    - destruct Hx as [Hrs [(p' & l & -> & Hp)|[-> ->]]].
      2: { (* the row machine is at the end of an empty row *)
           exists [], (Mach (map flat q) ts' m o). split; [reflexivity|]. split; [exact Hq|]. split; [reflexivity|].
           split; [|auto]. simpl. rewrite <- (list_insert_id ts' t (next_task TE (flat rs))) by exact Ex'.
           apply insert_rel; [exact Ht|]. apply rel_next; exact Hrs. }
      destruct (catch_up (map flat q) m o ts' t rs p Htl l p' Hp) as (n & p2 & l2 & Hn & Hp2 & Hl2).
      rewrite (list_insert_id ts' t) in Hn by exact Ex'.
      assert (forall sched, run TE (replicate n (t, 0) ++ sched) (Mach (map flat q) ts' m o) =
        run TE sched (Mach (map flat q) (<[t := Busy p2 (l2 ++ flat rs)]> ts') m o)) as Hrun.
      { intros sched. rewrite run_app, Hn. reflexivity. }
      assert (<[t := Busy p2 (l2 ++ flat rs)]> ts' !! t = Some (Busy p2 (l2 ++ flat rs))) as Hlk by (apply list_lookup_insert; exact Htl).
      clear Hp. destruct p2 as [a|ll k|ll v k|]; simpl in Hp2; subst p.
      + destruct Hl2 as [->|Hl2]; [|exfalso; apply (Hl2 a); reflexivity]. simpl.
        destruct rs as [|r rs].
        * exists (replicate n (t, 0) ++ [(t, 0)]), (Mach (map flat q) (<[t := Idle]> ts') m o). split.
          -- rewrite Hrun. cbn [run]. unfold step. simpl. rewrite list_lookup_insert by exact Htl. simpl.
             rewrite list_insert_insert. reflexivity.
          -- split; [exact Hq|]. split; [reflexivity|]. split; [|auto]. apply insert_rel; [exact Ht|reflexivity].
        * exists (replicate n (t, 0)), (Mach (map flat q) (<[t := Busy (Ret a) (ents r ++ flat rs)]> ts') m o). split.
          -- rewrite <- (app_nil_r (replicate n (t, 0))), Hrun. reflexivity.
          -- split; [exact Hq|]. split; [reflexivity|]. split; [|auto]. apply insert_rel; [exact Ht|].
             split; [intros x Hx; apply Hrs; right; auto|]. left. exists (Ret a), (ents r). split; [reflexivity|].
             rewrite (Hrs r) by left. reflexivity.
      + destruct (get (default m ((m :: o) !! pick)) ll) as [v| |msg|] eqn:Eg; simpl.
        * exists (replicate n (t, 0) ++ [(t, pick)]), (Mach (map flat q) (<[t := Busy (k v) (l2 ++ flat rs)]> ts') m o). split.
          -- rewrite Hrun. cbn [run]. unfold step. simpl mt. rewrite Hlk. simpl mcur. simpl mold. rewrite Eg. simpl.
             rewrite list_insert_insert. reflexivity.
          -- split; [exact Hq|]. split; [reflexivity|]. split; [|auto]. apply insert_rel; [exact Ht|].
             split; [exact Hrs|]. left. eauto.
        * exists (replicate n (t, 0) ++ [(t, pick)]). rewrite Hrun. cbn [run]. unfold step. simpl mt. rewrite Hlk.
          simpl mcur. simpl mold. rewrite Eg. reflexivity.
        * unfold get in Eg. destruct (_ !! ll); discriminate.
        * unfold get in Eg. destruct (_ !! ll); discriminate.
      + unfold set at 1. destruct (decide (ll < length m)) as [Hlt|Hge]; simpl.
        * exists (replicate n (t, 0) ++ [(t, pick)]), (Mach (map flat q) (<[t := Busy k (l2 ++ flat rs)]> ts') (<[ll:=v]> m) (m :: o)). split.
          -- rewrite Hrun. cbn [run]. unfold step. simpl mt. rewrite Hlk. simpl mcur. rewrite set_Ok by exact Hlt. simpl.
             rewrite list_insert_insert. reflexivity.
          -- split; [exact Hq|]. split; [reflexivity|]. split; [|auto]. apply insert_rel; [exact Ht|].
             split; [exact Hrs|]. left. eauto.
        * exists (replicate n (t, 0) ++ [(t, pick)]). rewrite Hrun. cbn [run]. unfold step. simpl mt. rewrite Hlk.
          simpl mcur. unfold set. rewrite decide_False by exact Hge. reflexivity.
      + exists (replicate n (t, 0) ++ [(t, pick)]). rewrite Hrun. cbn [run]. unfold step. simpl mt. rewrite Hlk. reflexivity.
  Qed.
  Lemma sim_run sched : forall s s', mrel s s' ->
    match run TR sched s with
    | Ok s1 => exists sched' s1', run TE sched' s' = Ok s1' /\ mrel s1 s1'
    | UB => exists sched', run TE sched' s' = UB
    | _ => False
    end.
  Proof.
    induction sched as [|[t pick] sched IH]; intros s s' H; cbn [run].
    - exists [], s'. auto.
    - pose proof (sim_step s s' t pick H) as Hs. destruct (step TR (t, pick) s) as [s1| | |]; cbn [bind]; auto.
      destruct Hs as (sc1 & s1' & Hr & Hm). specialize (IH s1 s1' Hm).
      destruct (run TR sched s1) as [s2| | |]; auto.
      + destruct IH as (sc2 & s2' & Hr2 & Hm2). exists (sc1 ++ sc2), s2'. rewrite run_app, Hr. auto.
      + destruct IH as (sc2 & Hr2). exists (sc1 ++ sc2). rewrite run_app, Hr. exact Hr2.
  Qed.
  Lemma mrel_init nthr q m : Forall Hrow q -> mrel (minit nthr q m) (minit nthr (map flat q) m).
  Proof.
    intros H. split; [exact H|]. split; [reflexivity|]. split; [|auto].
    simpl. induction nthr; simpl; constructor; auto. reflexivity.
  Qed.
  Theorem region_flat nthr q m m' : Forall Hrow q -> region TR nthr q m m' -> region TE nthr (map flat q) m m'.
  Proof.
    intros Hq (sched & s' & Hr & [Hd1 Hd2] & <-). pose proof (sim_run sched _ _ (mrel_init nthr q m Hq)) as H.
    rewrite Hr in H. destruct H as (sched' & s1' & Hr' & Hm). exists sched', s1'. split; [exact Hr'|].
    destruct Hm as (_ & Hq' & Ht & Hc & _). split; [|auto]. split; [rewrite Hq', Hd1; reflexivity|].
    clear -Hd2 Ht. induction Ht as [|x x' ts ts' Hx Ht IH]; constructor; inversion Hd2; subst; auto.
  Qed.
  Theorem region_safe_flat nthr q m : Forall Hrow q -> region_safe TE nthr (map flat q) m -> region_safe TR nthr q m.
  Proof.
    intros Hq Hs sched. pose proof (sim_run sched _ _ (mrel_init nthr q m Hq)) as H.
    destruct (run TR sched (minit nthr q m)) as [s1| | |]; [eauto| |destruct H|destruct H].
    destruct H as (sched' & H). destruct (Hs sched') as (s' & Hs'). congruence.
  Qed.
  Lemma concat_map_flat q : concat (map flat q) = flat (concat q).
  Proof. unfold flat. induction q as [|c q IH]; simpl; [reflexivity|]. rewrite IH, map_app, concat_app. reflexivity. Qed.
  (** every outcome of the rows' region is an outcome of the entries' region *)
  Theorem omp_region_flat usethreads nthr q m Q : 1 <= nthr -> Forall Hrow q ->
    nok (omp_region usethreads TE nthr (map flat q) m) Q ->
    (exists ms, exec_seq TE (flat (concat q)) m = Ok ms) ->
    nok (omp_region usethreads TR nthr q m) Q.
  Proof.
    intros Hn Hq [_ HQ] (ms & Hms).
    assert (exec_seq TR (concat q) m = exec_seq TE (flat (concat q)) m) as Heq.
    { apply exec_seq_flat. intros r Hr. apply elem_of_list_In, in_concat in Hr as (c & Hc & Hr).
      rewrite Forall_forall in Hq. apply (Hq c); apply elem_of_list_In; auto. }
    unfold omp_region in *. destruct (usethreads && negb (nthr =? 1)).
    - split.
      + exists (Ok ms). left. exists ms. split; [|reflexivity]. apply sequential_is_a_schedule; [exact Hn|]. rewrite Heq. exact Hms.
      + intros o [(m' & Hm & ->)|[-> Hns]]; apply HQ.
        * left. exists m'. split; [|reflexivity]. apply region_flat; auto.
        * right. split; [reflexivity|]. intros H. apply Hns, region_safe_flat; auto.
    - split; [eexists; reflexivity|]. intros o ->. apply HQ. unfold nlift. rewrite concat_map_flat, Heq. reflexivity.
  Qed.
End Flat.
