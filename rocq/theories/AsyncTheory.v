(** * AsyncTheory: what can be said of all schedules of a parallel region *)
From Verif Require Import Base Async.

Section Theory.
  Context {V : Type}.
  Notation P := (@P V).
  Implicit Types (m ms : list V) (rd wr : nat -> V -> Prop).

  (** ** Weakest preconditions
      [wp rd wr p Q]: if every read of [l] returns some [v] with [rd l v] (and one
      exists), [p] does not go wrong, writes only [v] to [l] with [wr l v], and
      returns a value in [Q]. *)
  Fixpoint wp {A} (rd wr : nat -> V -> Prop) (p : P A) (Q : A -> Prop) : Prop :=
    match p with
    | Ret a => Q a
    | Rd l k => (exists v, rd l v) /\ forall v, rd l v -> wp rd wr (k v) Q
    | Wr l v k => wr l v /\ wp rd wr k Q
    | Bad => False
    end.
  (** [p] writes location [l] on every path *)
  Fixpoint must {A} (l : nat) (p : P A) : Prop :=
    match p with
    | Ret _ => False
    | Rd _ k => forall v, must l (k v)
    | Wr l' _ k => l' = l \/ must l k
    | Bad => True
    end.
  Definition nowr : nat -> V -> Prop := fun _ _ => False.

  Lemma wp_bind {A B} rd wr (p : P A) (f : A -> P B) Q :
    wp rd wr p (fun a => wp rd wr (f a) Q) -> wp rd wr (pbind p f) Q.
  Proof.
    induction p as [a|l k IH|l v k IH|]; simpl; auto.
    - intros [He Hk]; split; auto.
    - intros [Hw Hk]; split; auto.
  Qed.
  Lemma wp_mono {A} (rd wr rd' wr' : nat -> V -> Prop) (p : P A) (Q Q' : A -> Prop) :
    wp rd wr p Q ->
    (forall l, (exists v, rd l v) -> exists v, rd' l v) ->
    (forall l v, rd' l v -> (exists v, rd l v) -> rd l v) ->
    (forall l v, wr l v -> wr' l v) ->
    (forall a, Q a -> Q' a) ->
    wp rd' wr' p Q'.
  Proof.
    intros H He Hrd Hwr HQ. induction p as [a|l k IH|l v k IH|]; simpl in *; auto.
    - destruct H as [H1 H2]. split; [auto|]. intros v Hv. apply IH, H2, Hrd; auto.
    - destruct H; split; auto.
  Qed.
  Lemma wp_post {A} rd wr (p : P A) (Q Q' : A -> Prop) :
    wp rd wr p Q -> (forall a, Q a -> Q' a) -> wp rd wr p Q'.
  Proof. intros H HQ. eapply wp_mono; eauto. Qed.
  Lemma wp_and {A} rd wr (p : P A) (Q Q' : A -> Prop) :
    wp rd wr p Q -> wp rd wr p Q' -> wp rd wr p (fun a => Q a /\ Q' a).
  Proof.
    induction p as [a|l k IH|l v k IH|]; simpl; auto.
    - intros [H1 H2] [H3 H4]; split; auto.
    - intros [H1 H2] [H3 H4]; split; auto.
  Qed.
  Lemma wp_plift {A} rd wr (r : res A) (Q : A -> Prop) : ok r Q -> wp rd wr (plift r) Q.
  Proof. destruct r; simpl; auto. Qed.
  Lemma wp_pread rd wr l (Q : V -> Prop) :
    (exists v, rd l v) -> (forall v, rd l v -> Q v) -> wp rd wr (pread l) Q.
  Proof. intros H1 H2. split; auto. Qed.
  Lemma wp_pwrite rd wr l v (Q : unit -> Prop) : wr l v -> Q tt -> wp rd wr (pwrite l v) Q.
  Proof. intros H1 H2. split; auto. Qed.

  Lemma wp_pfor_n {St} rd wr n : forall i (body : nat -> St -> P St) s (I : nat -> St -> Prop),
    I i s ->
    (forall j s', i <= j < i + n -> I j s' -> wp rd wr (body j s') (I (j + 1))) ->
    wp rd wr (pfor_n n i body s) (I (i + n)).
  Proof.
    induction n as [|n IH]; intros i body s I H0 Hs; cbn [pfor_n].
    - replace (i + 0) with i by lia. exact H0.
    - apply wp_bind. eapply wp_post; [apply Hs; [lia|exact H0]|].
      intros s' Hs'. replace (i + S n) with (i + 1 + n) by lia.
      apply IH; [exact Hs'|]. intros j s'' Hj. apply Hs. lia.
  Qed.
  Lemma wp_pfor {St} rd wr lo hi (body : nat -> St -> P St) s (I : nat -> St -> Prop) :
    lo <= hi -> I lo s ->
    (forall j s', lo <= j < hi -> I j s' -> wp rd wr (body j s') (I (j + 1))) ->
    wp rd wr (pfor lo hi body s) (I hi).
  Proof.
    intros Hle H0 Hs. unfold pfor. replace hi with (lo + (hi - lo)) at 2 by lia.
    apply wp_pfor_n; [exact H0|]. intros; apply Hs; [lia|assumption].
  Qed.
  Lemma wp_pfor_post {St} rd wr lo hi (body : nat -> St -> P St) s (I : nat -> St -> Prop) (Q : St -> Prop) :
    lo <= hi -> I lo s ->
    (forall j s', lo <= j < hi -> I j s' -> wp rd wr (body j s') (I (j + 1))) ->
    (forall s', I hi s' -> Q s') ->
    wp rd wr (pfor lo hi body s) Q.
  Proof. intros. eapply wp_post; [apply wp_pfor; eauto|auto]. Qed.

  Lemma must_bind {A B} l (p : P A) (f : A -> P B) :
    (forall a, must l (f a)) -> must l (pbind p f).
  Proof. intros H. induction p; simpl; auto. Qed.
  Lemma must_bind_l {A B} l (p : P A) (f : A -> P B) : must l p -> must l (pbind p f).
  Proof. induction p; simpl; intuition auto. Qed.

  (** ** Programs running alone *)
  Lemma exec_wp {A} m (p : P A) Q :
    wp (fun l v => m !! l = Some v) nowr p Q -> exists a, exec m p = Ok (a, m) /\ Q a.
  Proof.
    induction p as [a|l k IH|l v k IH|]; simpl; intros H.
    - eauto.
    - destruct H as [[v Hv] Hk]. unfold get. rewrite Hv. simpl. apply IH, Hk, Hv.
    - destruct H as [[] _].
    - destruct H.
  Qed.
  Lemma exec_bind {A B} m (p : P A) (f : A -> P B) :
    exec m (pbind p f) = let! (a, m') := exec m p in exec m' (f a).
  Proof.
    revert m; induction p as [a|l k IH|l v k IH|]; intros m; simpl; auto.
    - destruct (get m l); simpl; auto.
    - destruct (set m l v); simpl; auto.
  Qed.
  (** frame: only locations in [W] change, length is kept *)
  Lemma exec_frame {A} m (p : P A) a m' (n : nat) (W : nat -> Prop) Q :
    exec m p = Ok (a, m') ->
    wp (fun l _ => l < n) (fun l _ => W l) p Q ->
    length m' = length m /\ (forall l, ~ W l -> m' !! l = m !! l).
  Proof.
    revert m; induction p as [x|l k IH|l v k IH|]; intros m He Hw; simpl in *.
    - injection He as -> ->. auto.
    - destruct Hw as [[v0 Hv] Hk].
      apply bind_Ok in He as (v & Hg & He).
      eapply IH; [exact He|]. apply Hk. exact Hv.
    - destruct Hw as [Hwl Hk].
      apply bind_Ok in He as (m1 & Hset & He). unfold set in Hset.
      destruct (decide (l < length m)); [|discriminate]. injection Hset as <-.
      destruct (IH _ He Hk) as [H1 H2]. rewrite insert_length in H1. split; [exact H1|].
      intros l' Hl'. rewrite H2 by done. apply list_lookup_insert_ne. intros ->. contradiction.
    - destruct Hw.
  Qed.

  (** reads and writes used below *)
  Definition rdX (X : nat -> Prop) ms : nat -> V -> Prop := fun l v => X l /\ ms !! l = Some v.
  Definition wrS ms : nat -> V -> Prop := fun l v => ms !! l = Some v.
  (** [p] reads only settled locations and writes only the settled values *)
  Definition good (X : nat -> Prop) ms (p : P unit) : Prop := wp (rdX X ms) (wrS ms) p (fun _ => True).
  (** [p] is memory safe on [n] entries and writes nothing in [X] *)
  Definition avoids (n : nat) (X : nat -> Prop) (p : P unit) : Prop :=
    wp (fun l _ => l < n) (fun l _ => l < n /\ ~ X l) p (fun _ => True).
  Definition agree (X : nat -> Prop) m ms : Prop := forall l, X l -> m !! l = ms !! l.

  Lemma good_mono (X X' : nat -> Prop) ms p :
    good X ms p -> (forall l, X l -> X' l) -> good X' ms p.
  Proof.
    intros H HX. eapply wp_mono; [exact H| | | |]; simpl; auto.
    - intros l (v & Hx & Hv). exists v. split; auto.
    - intros l v [_ Hv] (v' & Hx & _). split; auto.
  Qed.

  Lemma exec_good X ms m (p : P unit) :
    good X ms p -> agree X m ms -> length m = length ms ->
    exists m', exec m p = Ok (tt, m') /\ length m' = length ms /\
      (forall l, m !! l = ms !! l -> m' !! l = ms !! l) /\
      (forall l, must l p -> m' !! l = ms !! l) /\
      (forall l, m' !! l = m !! l \/ m' !! l = ms !! l).
  Proof.
    unfold good. revert m; induction p as [[]|l k IH|l v k IH|]; intros m Hg HX Hl; simpl in *.
    - exists m. repeat split; auto. intros l [].
    - destruct Hg as [(v & Hx & Hv) Hk].
      assert (get m l = Ok v) as -> by (apply get_Some; rewrite HX; auto). simpl.
      destruct (IH v m) as (m' & He & Hl' & Hkeep & Hm & Hfr); auto.
      { apply Hk. split; auto. }
      exists m'. repeat split; auto.
    - destruct Hg as [Hw Hk]. unfold wrS in Hw.
      assert (l < length m) as Hlt by (rewrite Hl; eapply lookup_lt_Some; eauto).
      rewrite set_Ok by done. simpl.
      assert (forall l', m !! l' = ms !! l' -> (<[l:=v]> m) !! l' = ms !! l') as Hk1.
      { intros l' E. destruct (decide (l = l')) as [->|Hne].
        - rewrite list_lookup_insert by done. congruence.
        - rewrite list_lookup_insert_ne; auto. }
      destruct (IH (<[l:=v]> m)) as (m' & He & Hl' & Hkeep & Hm & Hfr); auto.
      { intros l' Hx. apply Hk1, HX, Hx. }
      { rewrite insert_length; auto. }
      exists m'. repeat split; auto.
      + intros l' [->|H]; auto. apply Hkeep. rewrite list_lookup_insert by done. congruence.
      + intros l'. destruct (Hfr l') as [E|E]; auto. rewrite E.
        destruct (decide (l = l')) as [->|Hne].
        * right. rewrite list_lookup_insert by done. congruence.
        * left. rewrite list_lookup_insert_ne; auto.
    - destruct Hg.
  Qed.

  (** ** Sequential execution of a list of tasks settles locations in stages *)
  Lemma exec_seq_settles ms (T : nat -> P unit) : forall rs (X : nat -> nat -> Prop) m,
    (forall j r, rs !! j = Some r -> good (X j) ms (T r)) ->
    (forall j r l, rs !! j = Some r -> X (S j) l -> X j l \/ must l (T r)) ->
    agree (X 0) m ms -> length m = length ms ->
    exists m', exec_seq T rs m = Ok m' /\ length m' = length ms /\
      agree (X (length rs)) m' ms /\
      (forall l, m !! l = ms !! l -> m' !! l = ms !! l).
  Proof.
    induction rs as [|r rs IH]; intros X m Hg Hm HX Hl; simpl.
    - exists m. auto.
    - destruct (exec_good (X 0) ms m (T r)) as (m1 & He & Hl1 & Hk1 & Hm1 & _);
        [apply (Hg 0); reflexivity|exact HX|exact Hl|].
      rewrite He. simpl.
      destruct (IH (fun j => X (S j)) m1) as (m' & He' & Hl' & HX' & Hk').
      { intros j r' Hr. apply (Hg (S j)). exact Hr. }
      { intros j r' l Hr. apply (Hm (S j)). exact Hr. }
      { intros l Hx. destruct (Hm 0 r l) as [H|H]; auto. }
      { exact Hl1. }
      exists m'. repeat split; auto.
  Qed.

  (** ** All schedules of a region *)
  Section Region.
    Variables (T : nat -> P unit) (ms : list V) (X Y : nat -> Prop).
    Let n := length ms.
    Definition task_ok (r : nat) : Prop :=
      good X ms (T r) \/ avoids n (fun l => X l \/ Y l) (T r).
    Definition prog_ok (p : P unit) : Prop :=
      good X ms p \/ avoids n (fun l => X l \/ Y l) p.
    Definition will (l r : nat) : Prop := good X ms (T r) /\ must l (T r).

    Definition pending (s : @mach V) (l : nat) : Prop :=
      (exists r, r ∈ concat (mq s) /\ will l r) \/
      (exists t p rs, mt s !! t = Some (Busy p rs) /\
         ((good X ms p /\ must l p) \/ exists r, r ∈ rs /\ will l r)).

    Record rinv (s : @mach V) : Prop := {
      ri_len : length (mcur s) = n;
      ri_hist : forall h, h ∈ mcur s :: mold s -> length h = n /\ agree X h ms;
      ri_q : forall r, r ∈ concat (mq s) -> task_ok r;
      ri_t : forall t p rs, mt s !! t = Some (Busy p rs) ->
               prog_ok p /\ forall r, r ∈ rs -> task_ok r;
      ri_y : forall l, Y l -> mcur s !! l = ms !! l \/ pending s l
    }.

    Lemma busy_insert (ts : list (@tstate V)) t t' x p rs :
      <[t := x]> ts !! t' = Some (Busy p rs) ->
      (t = t' /\ x = Busy p rs) \/ (t <> t' /\ ts !! t' = Some (Busy p rs)).
    Proof.
      intros H. apply list_lookup_insert_Some in H as [(-> & -> & _)|(Hne & H)]; auto.
    Qed.

    Lemma next_task_ok c p rs :
      (forall r, r ∈ c -> task_ok r) -> next_task T c = Busy p rs ->
      prog_ok p /\ forall r, r ∈ rs -> task_ok r.
    Proof.
      intros Hc. destruct c as [|r c]; simpl; [discriminate|]. intros [= <- <-].
      split; [apply Hc; left|]. intros r' Hr'. apply Hc; right; auto.
    Qed.
    Lemma next_task_pending (ts : list (@tstate V)) t c q m o l :
      t < length ts ->
      (exists r, r ∈ c /\ will l r) ->
      pending (Mach q (<[t := next_task T c]> ts) m o) l.
    Proof.
      intros Ht (r & Hr & Hw). right.
      destruct c as [|r0 c]; [apply elem_of_nil in Hr as []|].
      exists t, (T r0), c. simpl. split; [apply list_lookup_insert; auto|].
      apply elem_of_cons in Hr as [->|Hr]; [left; exact Hw|right; eauto].
    Qed.

    Lemma step_rinv s tp : rinv s -> exists s', step T tp s = Ok s' /\ rinv s'.
    Proof.
      intros H. destruct tp as [t pick]. unfold step.
      destruct (mt s !! t) as [[|p rs]|] eqn:Et; [| |eauto].
      - (* idle: fetch a chunk *)
        destruct (mq s) as [|c q] eqn:Eq; [eauto|].
        eexists; split; [reflexivity|]. constructor; simpl.
        + apply (ri_len s H).
        + apply (ri_hist s H).
        + intros r Hr. apply (ri_q s H). rewrite Eq. simpl. apply elem_of_app; auto.
        + intros t' p rs Hb. apply busy_insert in Hb as [[_ E]|[_ Hb]].
          * apply (next_task_ok c); [|exact E]. intros r Hr. apply (ri_q s H).
            rewrite Eq. simpl. apply elem_of_app; auto.
          * apply (ri_t s H t' p rs Hb).
        + intros l Hl. destruct (ri_y s H l Hl) as [E|[(r & Hr & Hw)|(t' & p & rs & Hb & Hw)]]; auto; right.
          * rewrite Eq in Hr. simpl in Hr. apply elem_of_app in Hr as [Hr|Hr].
            -- apply next_task_pending; eauto. eapply lookup_lt_Some; eauto.
            -- left. eauto.
          * right. exists t', p, rs. simpl. split; auto.
            rewrite list_lookup_insert_ne; auto. intros ->. congruence.
      - destruct (ri_t s H t p rs Et) as [Hp Hrs].
        assert (t < length (mt s)) as Ht by (eapply lookup_lt_Some; eauto).
        destruct p as [[]|l k|l v k|].
        + (* finished: next task of the chunk *)
          eexists; split; [reflexivity|]. constructor; simpl.
          * apply (ri_len s H).
          * apply (ri_hist s H).
          * apply (ri_q s H).
          * intros t' p rs' Hb. apply busy_insert in Hb as [[_ E]|[_ Hb]].
            -- apply (next_task_ok rs); auto.
            -- apply (ri_t s H t' p rs' Hb).
          * intros l Hl. destruct (ri_y s H l Hl) as [E|[(r & Hr & Hw)|(t' & p & rs' & Hb & Hw)]]; auto; right.
            -- left. eauto.
            -- destruct (decide (t = t')) as [->|Hne].
               ++ rewrite Et in Hb. injection Hb as <- <-.
                  destruct Hw as [[_ []]|Hw]. apply next_task_pending; auto.
               ++ right. exists t', p, rs'. simpl. split; auto. rewrite list_lookup_insert_ne; auto.
        + (* read *)
          set (h := default (mcur s) ((mcur s :: mold s) !! pick)).
          assert (h ∈ mcur s :: mold s) as Hh.
          { unfold h. destruct ((mcur s :: mold s) !! pick) eqn:E; simpl.
            - apply elem_of_list_lookup; eauto.
            - left. }
          destruct (ri_hist s H h Hh) as [Hhl Hha].
          assert (exists v, h !! l = Some v /\
                    (good X ms (Rd l k) -> rdX X ms l v)) as (v & Hv & Hgv).
          { destruct Hp as [Hp|Hp]; simpl in Hp.
            - destruct Hp as [(v & Hx & Hv) _]. exists v. rewrite Hha by done. split; auto.
              intros _; split; auto.
            - destruct Hp as [(_ & Hx) _].
              destruct (lookup_lt_is_Some_2 h l) as [v Hv]; [rewrite Hhl; exact Hx|].
              exists v; split; auto. intros [(v' & HX' & Hv') _].
              split; auto. rewrite <- Hha by done. exact Hv. }
          assert (get h l = Ok v) as -> by (apply get_Some; exact Hv). simpl.
          eexists; split; [reflexivity|]. constructor; simpl.
          * apply (ri_len s H).
          * apply (ri_hist s H).
          * apply (ri_q s H).
          * intros t' p rs' Hb. apply busy_insert in Hb as [[_ E]|[_ Hb]].
            -- injection E as <- <-. split; auto.
               destruct Hp as [Hp|Hp].
               ++ left. apply Hp. apply Hgv, Hp.
               ++ right. destruct Hp as [[_ Hlt] Hp]. apply Hp, Hlt.
            -- apply (ri_t s H t' p rs' Hb).
          * intros l' Hl. destruct (ri_y s H l' Hl) as [E|[(r & Hr & Hw)|(t' & p & rs' & Hb & Hw)]]; auto; right.
            -- left. eauto.
            -- destruct (decide (t = t')) as [->|Hne].
               ++ rewrite Et in Hb. injection Hb as <- <-. right.
                  exists t', (k v), rs. simpl. split; [apply list_lookup_insert; auto|].
                  destruct Hw as [[Hg Hm]|Hw]; auto. left. split; [|apply Hm].
                  apply Hg. apply Hgv, Hg.
               ++ right. exists t', p, rs'. simpl. split; auto. rewrite list_lookup_insert_ne; auto.
        + (* write *)
          assert (l < length (mcur s)) as Hlt.
          { rewrite (ri_len s H). destruct Hp as [[Hw _]|[[Hw _] _]]; auto.
            eapply lookup_lt_Some; exact Hw. }
          rewrite set_Ok by done. simpl.
          assert (forall l', X l' \/ Y l' -> mcur s !! l' = ms !! l' ->
                    <[l:=v]> (mcur s) !! l' = ms !! l') as Hkeep.
          { intros l' Hl' E. destruct (decide (l = l')) as [->|Hne].
            - destruct Hp as [[Hw _]|[[_ Hn] _]]; [|contradiction].
              rewrite list_lookup_insert by done. symmetry; exact Hw.
            - rewrite list_lookup_insert_ne; auto. }
          eexists; split; [reflexivity|]. constructor; simpl.
          * rewrite insert_length. apply (ri_len s H).
          * intros h Hh. apply elem_of_cons in Hh as [->|Hh]; [|apply (ri_hist s H h Hh)].
            rewrite insert_length. split; [apply (ri_len s H)|].
            intros l' Hl'. apply Hkeep; auto. apply (ri_hist s H); [left|exact Hl'].
          * apply (ri_q s H).
          * intros t' p rs' Hb. apply busy_insert in Hb as [[_ E]|[_ Hb]].
            -- injection E as <- <-. split; auto.
               destruct Hp as [[_ Hp]|[_ Hp]]; [left|right]; exact Hp.
            -- apply (ri_t s H t' p rs' Hb).
          * intros l' Hl. destruct (ri_y s H l' Hl) as [E|[(r & Hr & Hw)|(t' & p & rs' & Hb & Hw)]].
            -- left. apply Hkeep; auto.
            -- right. left. eauto.
            -- destruct (decide (t = t')) as [->|Hne].
               ++ rewrite Et in Hb. injection Hb as <- <-.
                  destruct Hw as [[Hg [->|Hm]]|Hw].
                  ** left. rewrite list_lookup_insert by done. symmetry. apply Hg.
                  ** right. right. exists t', k, rs. simpl. split; [apply list_lookup_insert; auto|].
                     left. split; auto. apply Hg.
                  ** right. right. exists t', k, rs. simpl. split; [apply list_lookup_insert; auto|]. auto.
               ++ right. right. exists t', p, rs'. simpl. split; auto. rewrite list_lookup_insert_ne; auto.
        + (* undefined behaviour is excluded *)
          destruct Hp as [[]|[]].
    Qed.

    Lemma run_rinv sched : forall s, rinv s -> exists s', run T sched s = Ok s' /\ rinv s'.
    Proof.
      induction sched as [|x sched IH]; intros s H; simpl; [eauto|].
      destruct (step_rinv s x H) as (s1 & E & H1). rewrite E. simpl. auto.
    Qed.

    Lemma rinv_init nthr q m :
      length m = n -> agree X m ms ->
      (forall r, r ∈ concat q -> task_ok r) ->
      (forall l, Y l -> m !! l = ms !! l \/ exists r, r ∈ concat q /\ will l r) ->
      rinv (minit nthr q m).
    Proof.
      intros Hl HX Hq Hy. constructor; simpl; auto.
      - intros h Hh. apply elem_of_list_singleton in Hh as ->. auto.
      - intros t p rs Hb. apply lookup_replicate in Hb as [Hb _]. discriminate.
      - intros l Hyl. destruct (Hy l Hyl); auto. right. left. auto.
    Qed.

    Lemma rinv_done s : rinv s -> mdone s -> agree (fun l => X l \/ Y l) (mcur s) ms.
    Proof.
      intros H [Hq Ht] l [Hx|Hy].
      - apply (ri_hist s H); [left|exact Hx].
      - destruct (ri_y s H l Hy) as [E|[(r & Hr & _)|(t & p & rs & Hb & _)]]; auto.
        + rewrite Hq in Hr. apply elem_of_nil in Hr as [].
        + rewrite Forall_lookup in Ht. specialize (Ht _ _ Hb). discriminate.
    Qed.

    (** The main lemma: settled locations stay settled and those surely written by
        good tasks become settled, whatever the schedule. *)
    Lemma region_settles nthr q m :
      length m = n -> agree X m ms ->
      (forall r, r ∈ concat q -> task_ok r) ->
      (forall l, Y l -> m !! l = ms !! l \/ exists r, r ∈ concat q /\ will l r) ->
      region_safe T nthr q m /\
      forall m', region T nthr q m m' -> length m' = n /\ agree (fun l => X l \/ Y l) m' ms.
    Proof.
      intros Hl HX Hq Hy.
      pose proof (rinv_init nthr q m Hl HX Hq Hy) as H0. split.
      - intros sched. destruct (run_rinv sched _ H0) as (s' & E & _). eauto.
      - intros m' (sched & s' & E & Hd & <-).
        destruct (run_rinv sched _ H0) as (s'' & E' & H'). rewrite E in E'. injection E' as <-.
        split; [apply (ri_len _ H')|]. apply rinv_done; auto.
    Qed.
  End Region.
End Theory.
