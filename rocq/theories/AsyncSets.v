(** * AsyncSets: parallel regions whose tasks read values of one kind and write
    values of a better kind *)
From Verif Require Import Base Async AsyncTheory AsyncSystem AsyncSweeps Nd.

Section Sets.
  Context {V : Type}.
  Notation P := (@P V).
  Section Region.
    Variables (T : nat -> P unit) (n : nat) (G S : nat -> V -> Prop).
    Hypothesis HSG : forall l v, l < n -> S l v -> G l v.
    Definition rdG (l : nat) (v : V) : Prop := l < n /\ G l v.
    Definition wrS (l : nat) (v : V) : Prop := l < n /\ S l v.
    Definition fine (p : P unit) : Prop := wp rdG wrS p (fun _ => True).
    Definition all_in (K : nat -> V -> Prop) (h : list V) : Prop := length h = n /\ forall l v, h !! l = Some v -> K l v.
    Definition due (s : @mach V) (l : nat) : Prop :=
      (exists r, r ∈ concat (mq s) /\ must l (T r)) \/
      (exists t p rs, mt s !! t = Some (Busy p rs) /\ (must l p \/ exists r, r ∈ rs /\ must l (T r))).
    (** the locations [Y] are good already or going to be written *)
    Variable Y : nat -> Prop.
    Record sinv (s : @mach V) : Prop := {
      si_hist : forall h, h ∈ mcur s :: mold s -> all_in G h;
      si_q : forall r, r ∈ concat (mq s) -> fine (T r);
      si_t : forall t p rs, mt s !! t = Some (Busy p rs) -> fine p /\ forall r, r ∈ rs -> fine (T r);
      si_y : forall l, Y l -> (forall v, mcur s !! l = Some v -> S l v) \/ due s l
    }.

    Lemma binsert (ts : list (@tstate V)) t t' x p rs :
      <[t := x]> ts !! t' = Some (Busy p rs) ->
      (t = t' /\ x = Busy p rs) \/ (t <> t' /\ ts !! t' = Some (Busy p rs)).
    Proof. intros H. apply list_lookup_insert_Some in H as [(-> & -> & _)|(Hne & H)]; auto. Qed.
    Lemma next_fine c p rs : (forall r, r ∈ c -> fine (T r)) -> next_task T c = Busy p rs ->
      fine p /\ forall r, r ∈ rs -> fine (T r).
    Proof.
      intros Hc. destruct c as [|r c]; simpl; [discriminate|]. intros [= <- <-].
      split; [apply Hc; left|]. intros r' Hr'. apply Hc; right; auto.
    Qed.
    Lemma next_due (ts : list (@tstate V)) t c q m o l : t < length ts ->
      (exists r, r ∈ c /\ must l (T r)) -> due (Mach q (<[t := next_task T c]> ts) m o) l.
    Proof.
      intros Ht (r & Hr & Hw). right. destruct c as [|r0 c]; [apply elem_of_nil in Hr as []|].
      exists t, (T r0), c. simpl. split; [apply list_lookup_insert; auto|].
      apply elem_of_cons in Hr as [->|Hr]; [left; exact Hw|right; eauto].
    Qed.

    Lemma step_sinv s tp : sinv s -> exists s', step T tp s = Ok s' /\ sinv s'.
    Proof.
      intros H. destruct tp as [t pick]. unfold step.
      destruct (mt s !! t) as [[|p rs]|] eqn:Et; [| |eauto].
      - destruct (mq s) as [|c q] eqn:Eq; [eauto|].
        eexists; split; [reflexivity|]. constructor; simpl.
        + apply (si_hist s H).
        + intros r Hr. apply (si_q s H). rewrite Eq. simpl. apply elem_of_app; auto.
        + intros t' p rs Hb. apply binsert in Hb as [[_ E]|[_ Hb]].
          * apply (next_fine c); [|exact E]. intros r Hr. apply (si_q s H).
            rewrite Eq. simpl. apply elem_of_app; auto.
          * apply (si_t s H t' p rs Hb).
        + intros l Hl. destruct (si_y s H l Hl) as [E|[(r & Hr & Hw)|(t' & p & rs & Hb & Hw)]]; auto; right.
          * rewrite Eq in Hr. simpl in Hr. apply elem_of_app in Hr as [Hr|Hr].
            -- apply next_due; eauto. eapply lookup_lt_Some; eauto.
            -- left. eauto.
          * right. exists t', p, rs. simpl. split; auto.
            rewrite list_lookup_insert_ne; auto. intros ->. congruence.
      - destruct (si_t s H t p rs Et) as [Hp Hrs].
        assert (t < length (mt s)) as Ht by (eapply lookup_lt_Some; eauto).
        destruct p as [[]|l k|l v k|].
        + eexists; split; [reflexivity|]. constructor; simpl.
          * apply (si_hist s H).
          * apply (si_q s H).
          * intros t' p rs' Hb. apply binsert in Hb as [[_ E]|[_ Hb]].
            -- apply (next_fine rs); auto.
            -- apply (si_t s H t' p rs' Hb).
          * intros l Hl. destruct (si_y s H l Hl) as [E|[(r & Hr & Hw)|(t' & p & rs' & Hb & Hw)]]; auto; right.
            -- left. eauto.
            -- destruct (decide (t = t')) as [->|Hne].
               ++ rewrite Et in Hb. injection Hb as <- <-.
                  destruct Hw as [[]|Hw]. apply next_due; auto.
               ++ right. exists t', p, rs'. simpl. split; auto. rewrite list_lookup_insert_ne; auto.
        + set (h := default (mcur s) ((mcur s :: mold s) !! pick)).
          assert (h ∈ mcur s :: mold s) as Hh.
          { unfold h. destruct ((mcur s :: mold s) !! pick) eqn:E; simpl.
            - apply elem_of_list_lookup; eauto.
            - left. }
          destruct (si_hist s H h Hh) as [Hhl Hha]. destruct Hp as [(v0 & Hlt & _) Hp].
          destruct (lookup_lt_is_Some_2 h l) as [v Hv]; [rewrite Hhl; exact Hlt|].
          assert (get h l = Ok v) as -> by (apply get_Some; exact Hv). simpl.
          eexists; split; [reflexivity|]. constructor; simpl.
          * apply (si_hist s H).
          * apply (si_q s H).
          * intros t' p rs' Hb. apply binsert in Hb as [[_ E]|[_ Hb]].
            -- injection E as <- <-. split; auto. apply Hp. split; [exact Hlt|]. apply Hha, Hv.
            -- apply (si_t s H t' p rs' Hb).
          * intros l' Hl. destruct (si_y s H l' Hl) as [E|[(r & Hr & Hw)|(t' & p & rs' & Hb & Hw)]]; auto; right.
            -- left. eauto.
            -- destruct (decide (t = t')) as [->|Hne].
               ++ rewrite Et in Hb. injection Hb as <- <-. right.
                  exists t', (k v), rs. simpl. split; [apply list_lookup_insert; auto|].
                  destruct Hw as [Hm|Hw]; [left; apply Hm|auto].
               ++ right. exists t', p, rs'. simpl. split; auto. rewrite list_lookup_insert_ne; auto.
        + destruct Hp as [[Hlt HS] Hp].
          destruct (si_hist s H (mcur s) ltac:(left)) as [Hcl Hca].
          rewrite set_Ok by lia. simpl.
          eexists; split; [reflexivity|]. constructor; simpl.
          * intros h Hh. apply elem_of_cons in Hh as [->|Hh]; [|apply (si_hist s H h Hh)].
            split; [rewrite insert_length; exact Hcl|]. intros l' v' Hv'.
            apply list_lookup_insert_Some in Hv' as [(-> & -> & _)|[_ Hv']]; auto.
          * apply (si_q s H).
          * intros t' p rs' Hb. apply binsert in Hb as [[_ E]|[_ Hb]].
            -- injection E as <- <-. split; auto.
            -- apply (si_t s H t' p rs' Hb).
          * intros l' Hl. destruct (si_y s H l' Hl) as [E|[(r & Hr & Hw)|(t' & p & rs' & Hb & Hw)]].
            -- left. intros v' Hv'. apply list_lookup_insert_Some in Hv' as [(-> & -> & _)|[_ Hv']]; auto.
            -- right. left. eauto.
            -- destruct (decide (t = t')) as [->|Hne].
               ++ rewrite Et in Hb. injection Hb as <- <-.
                  destruct Hw as [[->|Hm]|Hw].
                  ** left. intros v' Hv'. apply list_lookup_insert_Some in Hv' as [(_ & -> & _)|[Hne _]]; [exact HS|contradiction].
                  ** right. right. exists t', k, rs. simpl. split; [apply list_lookup_insert; auto|]. auto.
                  ** right. right. exists t', k, rs. simpl. split; [apply list_lookup_insert; auto|]. auto.
               ++ right. right. exists t', p, rs'. simpl. split; auto. rewrite list_lookup_insert_ne; auto.
        + destruct Hp.
    Qed.
    Lemma run_sinv sched : forall s, sinv s -> exists s', run T sched s = Ok s' /\ sinv s'.
    Proof.
      induction sched as [|x sched IH]; intros s H; simpl; [eauto|].
      destruct (step_sinv s x H) as (s1 & E & H1). rewrite E. simpl. auto.
    Qed.
    Lemma region_sets nthr q m : all_in G m ->
      (forall r, r ∈ concat q -> fine (T r)) ->
      (forall l, Y l -> (forall v, m !! l = Some v -> S l v) \/ exists r, r ∈ concat q /\ must l (T r)) ->
      region_safe T nthr q m /\
      forall m', region T nthr q m m' -> all_in G m' /\ forall l v, Y l -> m' !! l = Some v -> S l v.
    Proof.
      intros Hm Hq Hy.
      assert (sinv (minit nthr q m)) as H0.
      { constructor; simpl; auto.
        - intros h Hh. apply elem_of_list_singleton in Hh as ->. auto.
        - intros t p rs Hb. apply lookup_replicate in Hb as [Hb _]. discriminate.
        - intros l Hyl. destruct (Hy l Hyl); auto. right. left. auto. }
      split.
      - intros sched. destruct (run_sinv sched _ H0) as (s' & E & _). eauto.
      - intros m' (sched & s' & E & Hd & <-).
        destruct (run_sinv sched _ H0) as (s'' & E' & H'). rewrite E in E'. injection E' as <-.
        split; [apply (si_hist _ H'); left|]. intros l v Hl Hv. destruct Hd as [Hq' Ht].
        destruct (si_y _ H' l Hl) as [Hs|[(r & Hr & _)|(t & p & rs & Hb & _)]]; auto.
        + rewrite Hq' in Hr. apply elem_of_nil in Hr as [].
        + rewrite Forall_lookup in Ht. specialize (Ht _ _ Hb). discriminate.
    Qed.
  End Region.

  (** The same for the tasks of the library: compute a segment, then store it. *)
  Section Tasks.
    Variables (w N : nat) (C : nat -> P (list V)) (G S : nat -> V -> Prop).
    Hypothesis HSG : forall l v, l < N * w -> S l v -> G l v.
    Hypothesis HG : forall l, l < N * w -> exists v, G l v.
    Definition improves (r : nat) : Prop :=
      r < N /\ wp (fun l v => l < N * w /\ G l v) nowr (C r)
        (fun seg => length seg = w /\ forall k v, seg !! k = Some v -> S (r * w + k) v).

    Lemma improves_fine r : improves r -> fine (N * w) G S (T w C r).
    Proof.
      intros [Hr Hk]. unfold T, fine. apply wp_bind. eapply wp_mono; [exact Hk|auto|auto|intros l v []|].
      simpl. intros seg [Hl Hs]. apply wp_pwseg; [|auto]. intros k v Hv. pose proof (lookup_lt_Some _ _ _ Hv).
      split; [nia|auto].
    Qed.
    (** Every run of the region, threaded or not, leaves all cells in [G], and in [S]
        those of the tasks that were run. *)
    Lemma region_improves ut nthr q m dep : 1 <= nthr ->
      (forall r, r ∈ concat q -> improves r /\ kernel_ok w C N dep r) ->
      all_in (N * w) G m ->
      nok (omp_region ut (T w C) nthr q m) (fun m' => all_in (N * w) G m' /\
        forall r l v, r ∈ concat q -> own w r l -> m' !! l = Some v -> S l v).
    Proof.
      intros Hn Hq Hm.
      assert (forall nt, region_safe (T w C) nt q m /\
        forall m', region (T w C) nt q m m' -> all_in (N * w) G m' /\
          forall l v, (exists r, r ∈ concat q /\ own w r l) -> m' !! l = Some v -> S l v) as Hr.
      { intros nt. apply (region_sets _ (N * w) G S HSG); auto.
        - intros r Hr. apply improves_fine, Hq, Hr.
        - intros l (r & Hr & Ho). right. exists r. split; [exact Hr|]. eapply must_T; [apply Hq, Hr|exact Ho]. }
      destruct (exec_seq_total w C N dep (concat q) m) as (ms & He & _).
      { intros r H. apply Hq, H. }
      { apply Hm. }
      unfold omp_region. destruct (ut && negb (nthr =? 1)).
      - apply nok_par_region; [exact Hn|eauto|apply Hr|].
        intros m' Hm'. destruct (Hr nthr) as [_ H]. destruct (H m' Hm') as [Ha Hb]. split; [exact Ha|]. intros; eapply Hb; eauto.
      - apply nok_lift. rewrite He. simpl.
        destruct (Hr 1) as [_ H]. destruct (H ms) as [Ha Hb]; [apply sequential_is_a_schedule; [lia|exact He]|].
        split; [exact Ha|]. intros; eapply Hb; eauto.
    Qed.
  End Tasks.
End Sets.
