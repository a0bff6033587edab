(** * SaiFacts: what the loops of Sai compute *)
From Coq Require Import ZArith Sorting.Sorted.
From Verif Require Import Base Alg SRMatrix Helpers Nd PropTriView Sai SaiSpec.
Local Open Scope nat_scope.

Lemma ins_next {B} (X : list B) r d y : 0 < r -> <[length X := y]> (X ++ replicate r d) = (X ++ [y]) ++ replicate (r - 1) d.
Proof.
  intros H. replace r with (S (r - 1)) at 1 by lia. rewrite <- (Nat.add_0_r (length X)), insert_app_r. cbn [replicate]. rewrite <- app_assoc. reflexivity.
Qed.
Lemma get_next {B} (X : list B) r d : 0 < r -> (X ++ replicate r d) !! length X = Some d.
Proof. intros H. rewrite lookup_app_r, Nat.sub_diag by lia. apply lookup_replicate_2. lia. Qed.
Lemma set_next {B} (X : list B) r d y : 0 < r -> set (X ++ replicate r d) (length X) y = Ok ((X ++ [y]) ++ replicate (r - 1) d).
Proof. intros H. rewrite set_Ok by (rewrite app_length, replicate_length; lia). rewrite ins_next by exact H. reflexivity. Qed.

Lemma set_middle {B} (X Y : list B) a b : set (X ++ a :: Y) (length X) b = Ok (X ++ b :: Y).
Proof.
  rewrite set_Ok by (rewrite app_length; cbn [length]; lia). rewrite <- (Nat.add_0_r (length X)), insert_app_r. reflexivity.
Qed.

(** ** std::set *)
Lemma set_insert_elem x s c : c ∈ set_insert x s <-> c = x \/ c ∈ s.
Proof.
  induction s as [|y s IH]; cbn [set_insert].
  - rewrite elem_of_list_singleton. split; [auto|]. intros [H|H]; [exact H|]. apply elem_of_nil in H as [].
  - destruct (Nat.ltb_spec x y); [apply elem_of_cons|]. destruct (Nat.eqb_spec x y) as [->|Hn].
    + rewrite elem_of_cons. tauto.
    + rewrite !elem_of_cons, IH. tauto.
Qed.
Lemma set_insert_sorted x s : StronglySorted lt s -> StronglySorted lt (set_insert x s).
Proof.
  induction 1 as [|y s Hs IH Hy]; cbn [set_insert]; [constructor; constructor|]. destruct (Nat.ltb_spec x y).
  - constructor; [constructor; assumption|]. constructor; [exact H|]. eapply Forall_impl; [exact Hy|]. intros; lia.
  - destruct (Nat.eqb_spec x y) as [->|Hn]; [constructor; assumption|]. constructor; [exact IH|]. apply Forall_forall. intros c Hc. apply set_insert_elem in Hc as [->|Hc]; [lia|].
    rewrite Forall_forall in Hy. apply Hy, Hc.
Qed.
Definition inserts (s l : list nat) : list nat := foldl (fun s x => set_insert x s) s l.
Lemma inserts_snoc s l x : inserts s (l ++ [x]) = set_insert x (inserts s l).
Proof. unfold inserts. rewrite foldl_app. reflexivity. Qed.
Lemma inserts_app s l l' : inserts s (l ++ l') = inserts (inserts s l) l'.
Proof. apply foldl_app. Qed.
Lemma inserts_elem l : forall s c, c ∈ inserts s l <-> c ∈ s \/ c ∈ l.
Proof.
  induction l as [|x l IH]; intros s c; [cbn; rewrite elem_of_nil; tauto|]. cbn [inserts foldl]. fold (inserts (set_insert x s) l). rewrite IH, set_insert_elem, elem_of_cons. tauto.
Qed.
Lemma inserts_sorted l : forall s, StronglySorted lt s -> StronglySorted lt (inserts s l).
Proof. induction l as [|x l IH]; intros s H; [exact H|]. apply IH, set_insert_sorted, H. Qed.
Lemma sorted_NoDup (s : list nat) : StronglySorted lt s -> NoDup s.
Proof. induction 1 as [|y s Hs IH Hy]; constructor; [|exact IH]. intros H. rewrite Forall_forall in Hy. specialize (Hy _ H). lia. Qed.

(** ** Matrices given by rows that need not be adjacent *)
Section View.
  Context {A : Type} (V : srmat A).
  Notation n := (nbrows V).
  Notation rb i := (browptr V !!! i).
  Notation re i := (browendptr V !!! i).
  Notation cl j := (bcolind V !!! j).
  Hypothesis Hw : wf_view V.
  Lemma get_rb i : i < n -> get (browptr V) i = Ok (rb i).
  Proof. intros H. apply get_Some, list_lookup_lookup_total_lt. destruct Hw. lia. Qed.
  Lemma get_re i : i < n -> get (browendptr V) i = Ok (re i).
  Proof. intros H. apply get_Some, list_lookup_lookup_total_lt. destruct Hw as (_ & ? & _). lia. Qed.
  Lemma rb_re i : i < n -> rb i <= re i.
  Proof. intros H. apply Hw. exact H. Qed.
  Lemma get_cl i j : i < n -> rb i <= j < re i -> get (bcolind V) j = Ok (cl j).
  Proof. intros H Hj. apply get_Some, list_lookup_lookup_total_lt. destruct Hw as (_ & _ & H1 & _). specialize (H1 i H). lia. Qed.
  Lemma cl_lt i j : i < n -> rb i <= j < re i -> cl j < n.
  Proof. intros H Hj. destruct Hw as (_ & _ & _ & H1). apply (H1 i j H). apply elem_of_range. exact Hj. Qed.
  Lemma for_row_eq {St} i (body : nat -> St -> res St) s : i < n -> for_row V i body s = for_ (rb i) (re i) body s.
  Proof. intros H. unfold for_row. rewrite get_rb, get_re by exact H. reflexivity. Qed.
  Lemma ok_for_row {St} i (body : nat -> St -> res St) s (I : nat -> St -> Prop) (Q : St -> Prop) : i < n ->
    I (rb i) s -> (forall j s, rb i <= j < re i -> I j s -> ok (body j s) (I (j + 1))) -> (forall s, I (re i) s -> Q s) ->
    ok (for_row V i body s) Q.
  Proof. intros H H1 H2 H3. rewrite for_row_eq by exact H. apply ok_for_post with (I := I); auto. apply rb_re, H. Qed.

  (** *** all (row, entry) pairs: one small matrix column each *)
  Definition colsupto (i : nat) : list (nat * nat) := seq 0 i ≫= (fun i => pair i <$> vrange V i).
  Definition pre (i jj : nat) : list (nat * nat) := colsupto i ++ (pair i <$> range (rb i) jj).
  Definition cols : list (nat * nat) := colsupto n.
  Lemma colsupto_S i : colsupto (i + 1) = colsupto i ++ (pair i <$> vrange V i).
  Proof. unfold colsupto. rewrite seq_app, bind_app. cbn [seq]. rewrite Nat.add_0_l, bind_one. reflexivity. Qed.
  Lemma pre_first i : pre i (rb i) = colsupto i.
  Proof. unfold pre. rewrite range_nil by lia. apply app_nil_r. Qed.
  Lemma pre_last i : pre i (re i) = colsupto (i + 1).
  Proof. rewrite colsupto_S. reflexivity. Qed.
  Lemma pre_next i jj : rb i <= jj -> pre i (jj + 1) = pre i jj ++ [(i, jj)].
  Proof. intros H. unfold pre. rewrite range_snoc, fmap_app, app_assoc by exact H. reflexivity. Qed.
  Lemma pre_length i jj : length (pre i jj) = length (colsupto i) + (jj - rb i).
  Proof. unfold pre. rewrite app_length, fmap_length, range_length. reflexivity. Qed.
  Lemma colsupto_prefix i m : i <= m -> exists post, colsupto m = colsupto i ++ post.
  Proof.
    intros H. exists (seq i (m - i) ≫= (fun i => pair i <$> vrange V i)). unfold colsupto. rewrite <- bind_app. f_equal.
    replace m with (i + (m - i)) at 1 by lia. rewrite seq_app. reflexivity.
  Qed.
  Lemma pre_prefix i jj : i < n -> rb i <= jj < re i -> exists post, cols = pre i jj ++ (i, jj) :: post.
  Proof.
    intros H Hj. destruct (colsupto_prefix (i + 1) n) as [post E]; [lia|]. exists ((pair i <$> range (jj + 1) (re i)) ++ post). unfold cols. rewrite E, colsupto_S. unfold pre, vrange.
    rewrite (range_app _ jj) by lia. rewrite (range_cons jj) by lia. rewrite fmap_app, fmap_cons, <- !app_assoc. reflexivity.
  Qed.
  Lemma take_pre i jj : i < n -> rb i <= jj < re i -> take (length (pre i jj)) cols = pre i jj.
  Proof. intros H Hj. destruct (pre_prefix i jj H Hj) as [post ->]. apply take_app. Qed.
  Lemma pre_lt i jj : i < n -> rb i <= jj < re i -> length (pre i jj) < length cols.
  Proof. intros H Hj. destruct (pre_prefix i jj H Hj) as [post ->]. rewrite app_length. cbn. lia. Qed.
  Lemma cols_elem i jj : (i, jj) ∈ cols <-> i < n /\ rb i <= jj < re i.
  Proof.
    unfold cols, colsupto. rewrite elem_of_list_bind. split.
    - intros (i' & H1 & H2). apply elem_of_list_fmap in H1 as (j' & [= -> ->] & H1). apply elem_of_range in H1. apply elem_of_seq in H2. lia.
    - intros [H1 H2]. exists i. split; [apply elem_of_list_fmap; exists jj; split; [reflexivity|apply elem_of_range; exact H2]|apply elem_of_seq; lia].
  Qed.

  (** *** the pointers, for given contents [ent] of the columns *)
  Variable ent : nat * nat -> list (nat * Z).
  Definition ents (l : list (nat * nat)) : list (nat * Z) := l ≫= ent.
  Lemma ents_snoc l c : ents (l ++ [c]) = ents l ++ ent c.
  Proof. unfold ents. rewrite bind_app, bind_one. reflexivity. Qed.
  Lemma ents_pre_le i jj : i < n -> rb i <= jj < re i -> length (ents (pre i jj)) + length (ent (i, jj)) <= length (ents cols).
  Proof. intros H Hj. destruct (pre_prefix i jj H Hj) as [post ->]. unfold ents. rewrite bind_app, app_length. cbn [mbind list_bind]. rewrite app_length. unfold mbind. lia. Qed.

  Lemma scan_rows srp : length srp = n + 1 -> srp !! 0 = Some 0 -> (forall i, i < n -> srp !! (i + 1) = Some (re i - rb i)) ->
    ok (inclusive_scan srp) (fun s => length s = n + 1 /\ forall i, i <= n -> s !! i = Some (length (colsupto i))).
  Proof.
    intros L H0 H. eapply ok_mono; [apply inclusive_scan_spec|]. intros s [L' H']. split; [congruence|]. intros i Hi. rewrite H' by lia. f_equal. clear H' L'.
    induction i as [|i IH].
    - rewrite (psum_S srp 0 0) by exact H0. reflexivity.
    - replace (S i) with (i + 1) by lia. rewrite (psum_S srp (i + 1) (re i - rb i)) by (apply H; lia). rewrite IH by lia. rewrite colsupto_S, app_length, fmap_length. unfold vrange. rewrite range_length. lia.
  Qed.
  Lemma scan_cols bcp : bcp = 0 :: ((fun c => length (ent c)) <$> cols) ->
    ok (inclusive_scan bcp) (fun b => length b = length cols + 1 /\ forall q, q <= length cols -> b !! q = Some (length (ents (take q cols)))).
  Proof.
    intros E. assert (length bcp = length cols + 1) as L by (rewrite E; cbn [length]; rewrite fmap_length; lia).
    eapply ok_mono; [apply inclusive_scan_spec|]. intros b [L' H']. split; [congruence|]. intros q Hq. rewrite H' by lia. f_equal. clear L' H'.
    induction q as [|q IH].
    - rewrite (psum_S bcp 0 0) by (rewrite E; reflexivity). reflexivity.
    - destruct (lookup_lt_is_Some_2 cols q) as [c Hc]; [lia|]. replace (S q) with (q + 1) at 1 by lia. rewrite (psum_S bcp (q + 1) (length (ent c))).
      + rewrite IH by lia. rewrite (take_S_r _ _ c Hc), ents_snoc, app_length. reflexivity.
      + rewrite E. replace (q + 1) with (S q) by lia. change (((fun c => length (ent c)) <$> cols) !! q = Some (length (ent c))). rewrite list_lookup_fmap, Hc. reflexivity.
  Qed.
  (** one more column counted *)
  Definition counted (done : list (nat * nat)) : list nat := 0 :: ((fun c => length (ent c)) <$> done).
  Lemma counted_length l : length (counted l) = length l + 1.
  Proof. unfold counted. cbn. rewrite fmap_length. lia. Qed.
  Lemma counted_snoc l c : counted (l ++ [c]) = counted l ++ [length (ent c)].
  Proof. unfold counted. rewrite fmap_app. reflexivity. Qed.
End View.

(** ** The full pattern *)
Section Full.
  Context {A : Type} (V : srmat A).
  Notation n := (nbrows V).
  Notation rb i := (browptr V !!! i).
  Notation re i := (browendptr V !!! i).
  Notation cl j := (bcolind V !!! j).
  Hypothesis Hw : wf_view V.

  (** the columns of the rows of the first unknowns *)
  Definition reach (i jj : nat) : list nat := range (rb i) jj ≫= (fun j => unknowns V (cl j)).
  Definition cs (i : nat) : list nat := inserts [] (reach i (re i)).
  Lemma reach_first i : reach i (rb i) = [].
  Proof. unfold reach. rewrite range_nil by lia. reflexivity. Qed.
  Lemma reach_next i jj : rb i <= jj -> reach i (jj + 1) = reach i jj ++ unknowns V (cl jj).
  Proof. intros H. unfold reach. rewrite range_snoc, bind_app, bind_one by exact H. reflexivity. Qed.
  Definition part (c kk : nat) : list nat := (fun j => cl j) <$> range (rb c) kk.
  Lemma part_first c : part c (rb c) = [].
  Proof. unfold part. rewrite range_nil by lia. reflexivity. Qed.
  Lemma part_next c kk : rb c <= kk -> part c (kk + 1) = part c kk ++ [cl kk].
  Proof. intros H. unfold part. rewrite range_snoc, fmap_app by exact H. reflexivity. Qed.
  Lemma cs_sorted i : StronglySorted lt (cs i).
  Proof. apply inserts_sorted. constructor. Qed.
  Lemma cs_elem i c : c ∈ cs i <-> exists u, u ∈ unknowns V i /\ c ∈ unknowns V u.
  Proof.
    unfold cs. rewrite inserts_elem. unfold reach. rewrite elem_of_list_bind. split.
    - intros [H|(j & H & Hj)]; [apply elem_of_nil in H as []|]. exists (cl j). split; [|exact H]. unfold unknowns. apply elem_of_list_fmap. exists j. split; [reflexivity|exact Hj].
    - intros (u & Hu & Hc). right. unfold unknowns in Hu. apply elem_of_list_fmap in Hu as (j & -> & Hj). exists j. split; [exact Hc|exact Hj].
  Qed.

  Definition idx (l : list nat) (x : nat) : Z := match list_find (fun y => y = x) l with Some (z, _) => Z.of_nat z | None => (-1)%Z end.
  Definition ent_full (c : nat * nat) : list (nat * Z) := (fun kk => (kk, idx (cs c.1) (cl kk))) <$> vrange V (cl c.2).
  Definition isidx (l : list nat) (k x : nat) (z : Z) : Prop :=
    (exists i, z = Z.of_nat i /\ i < k /\ l !! i = Some x) \/ (z = (-1)%Z /\ forall i, i < k -> l !! i <> Some x).
  Lemma isidx_fun l x z : NoDup l -> isidx l (length l) x z -> z = idx l x.
  Proof.
    intros Hd [(i & -> & Hi & E)|[-> H]]; unfold idx.
    - destruct (list_find _ l) as [[z y]|] eqn:F.
      + apply list_find_Some in F as (H1 & -> & _). f_equal. eapply NoDup_lookup; eassumption.
      + rewrite list_find_None, Forall_forall in F. destruct (F x); [|reflexivity]. eapply elem_of_list_lookup_2, E.
    - destruct (list_find _ l) as [[z y]|] eqn:F; [|reflexivity]. apply list_find_Some in F as (H1 & -> & _). destruct (H z); [|exact H1]. eapply lookup_lt_Some, H1.
  Qed.

  Record done (E : nat -> list nat) (ent : nat * nat -> list (nat * Z)) (sp : saipat) : Prop := {
    d_nv : length (nVars sp) = n /\ forall i, i < n -> nVars sp !! i = Some (re i - rb i);
    d_ne : length (nEqns sp) = n /\ forall i, i < n -> nEqns sp !! i = Some (length (E i));
    d_srp : length (sairowptr sp) = n + 1 /\ forall i, i <= n -> sairowptr sp !! i = Some (length (colsupto V i));
    d_bcp : length (bcolptr sp) = length (cols V) + 1 /\ forall q, q <= length (cols V) -> bcolptr sp !! q = Some (length (ents ent (take q (cols V))));
    d_bp : bpos sp = (ents ent (cols V)).*1;
    d_bri : browind sp = (ents ent (cols V)).*2;
    d_lcr : length (localCentralRow sp) = n /\ forall i, i < n -> (exists z, E i !! z = Some i /\ localCentralRow sp !! i = Some (Z.of_nat z)) \/
              (i ∉ E i /\ localCentralRow sp !! i = Some (-1)%Z) }.

  Lemma full_done : ok (left_SAI_pattern V) (done cs ent_full).
  Proof.
    unfold left_SAI_pattern.
    eapply ok_bind with (P := fun '(srp, nv, ne, total) => (length srp = n + 1 /\ srp !! 0 = Some 0 /\ forall i, i < n -> srp !! (i + 1) = Some (re i - rb i)) /\
      (length nv = n /\ forall i, i < n -> nv !! i = Some (re i - rb i)) /\ (length ne = n /\ forall i, i < n -> ne !! i = Some (length (cs i))) /\
      total = length (ents ent_full (cols V))).
    { apply ok_for_post with (I := fun k '(srp, nv, ne, total) => (length srp = n + 1 /\ srp !! 0 = Some 0 /\ forall i, i < k -> srp !! (i + 1) = Some (re i - rb i)) /\
        (length nv = n /\ forall i, i < k -> nv !! i = Some (re i - rb i)) /\ (length ne = n /\ forall i, i < k -> ne !! i = Some (length (cs i))) /\
        total = length (ents ent_full (colsupto V k))); [lia| | |auto].
      { rewrite !replicate_length. split; [|split; [|split]]; [split; [reflexivity|split; [apply lookup_replicate_2; lia|lia]]|split; [reflexivity|lia]|split; [reflexivity|lia]|reflexivity]. }
      intros i [[[srp nv] ne] total] Hi ((S1 & S2 & S3) & (N1 & N2) & (E1 & E2) & ->). cbn beta iota.
      rewrite get_re, get_rb by (assumption || lia). cbn [bind]. rewrite set_Ok by lia. cbn [bind].
      eapply ok_bind with (P := fun '(c, t) => c = cs i /\ t = length (ents ent_full (colsupto V (i + 1)))).
      - apply (ok_for_row V Hw) with (I := fun jj '(c, t) => c = inserts [] (reach i jj) /\ t = length (ents ent_full (pre V i jj))); [lia| | |].
        + rewrite reach_first, pre_first. split; reflexivity.
        + intros jj [c t] Hj [-> ->]. rewrite (get_cl V Hw i) by (assumption || lia). cbn [bind]. pose proof (cl_lt V Hw i jj ltac:(lia) Hj) as Hc.
          apply (ok_for_row V Hw) with (I := fun kk '(c, t) => c = inserts [] (reach i jj ++ part (cl jj) kk) /\ t = length (ents ent_full (pre V i jj)) + (kk - rb (cl jj))); [exact Hc| | |].
          * rewrite part_first, app_nil_r. split; [reflexivity|lia].
          * intros kk [c t] Hk [-> ->]. rewrite (get_cl V Hw (cl jj)) by assumption. cbn [bind ok]. rewrite part_next, app_assoc, inserts_snoc by lia. split; [reflexivity|lia].
          * intros [c t] [-> ->]. rewrite reach_next by lia. split; [reflexivity|]. rewrite pre_next, ents_snoc, app_length by lia. unfold ent_full at 3. rewrite fmap_length. cbn [snd]. unfold vrange. rewrite range_length. reflexivity.
        + intros [c t] [-> ->]. rewrite pre_last. auto.
      - intros [c t] [-> ->]. rewrite set_Ok by lia. cbn [bind]. unfold get. rewrite list_lookup_insert by lia. cbn [bind]. rewrite set_Ok by lia. cbn [bind ok].
        rewrite !insert_length. split; [|split; [|split]].
        + split; [exact S1|]. split; [rewrite list_lookup_insert_ne by lia; exact S2|]. intros i' Hi'. destruct (decide (i' = i)) as [->|Hne]; [apply list_lookup_insert; lia|].
          rewrite list_lookup_insert_ne by lia. apply S3. lia.
        + split; [exact N1|]. intros i' Hi'. destruct (decide (i' = i)) as [->|Hne]; [apply list_lookup_insert; lia|]. rewrite list_lookup_insert_ne by lia. apply N2. lia.
        + split; [exact E1|]. intros i' Hi'. destruct (decide (i' = i)) as [->|Hne]; [apply list_lookup_insert; lia|]. rewrite list_lookup_insert_ne by lia. apply E2. lia.
        + reflexivity. }
    intros [[[srp0 nv] ne] total] (S0 & Hnv & Hne & ->). cbn beta iota. destruct S0 as (S1 & S2 & S3).
    eapply ok_bind; [apply (scan_rows V srp0 S1 S2 S3)|]. clear srp0 S1 S2 S3. intros srp [Ls Hs]. unfold get at 1. rewrite (Hs n) by lia. cbn [bind].
    eapply ok_bind with (P := fun bcp => bcp = counted ent_full (cols V)).
    { apply ok_for_post with (I := fun k bcp => bcp = counted ent_full (colsupto V k) ++ replicate (length (cols V) - length (colsupto V k)) 0); [lia| | |].
      - cbn. rewrite Nat.sub_0_r, Nat.add_1_r. reflexivity.
      - intros i bcp Hi ->. apply (ok_for_row V Hw) with (I := fun jj bcp => bcp = counted ent_full (pre V i jj) ++ replicate (length (cols V) - length (pre V i jj)) 0); [lia| | |].
        + rewrite pre_first. reflexivity.
        + intros jj bcp Hj ->. rewrite (get_cl V Hw i) by lia. cbn [bind]. rewrite (get_rb V Hw) by lia. cbn [bind].
          pose proof (cl_lt V Hw i jj ltac:(lia) Hj) as Hc. pose proof (pre_lt V i jj ltac:(lia) Hj) as Hp.
          apply (ok_for_row V Hw) with (I := fun kk bcp => bcp = (counted ent_full (pre V i jj) ++ [kk - rb (cl jj)]) ++ replicate (length (cols V) - length (pre V i jj) - 1) 0); [exact Hc| | |].
          * rewrite Nat.sub_diag. rewrite <- app_assoc. f_equal. replace (length (cols V) - length (pre V i jj)) with (S (length (cols V) - length (pre V i jj) - 1)) at 1 by lia. reflexivity.
          * intros kk bcp Hk ->. unfold get. rewrite (Hs i) by lia. cbn [bind].
            assert (length (colsupto V i) + (jj - rb i) + 1 = length (counted ent_full (pre V i jj))) as El by (rewrite counted_length, pre_length; lia).
            rewrite El. rewrite <- app_assoc. cbn [app]. rewrite list_lookup_middle by reflexivity. cbn [bind]. rewrite set_middle. cbn [ok]. rewrite <- app_assoc. cbn [app]. do 2 f_equal. lia.
          * intros bcp ->. rewrite pre_next by lia. rewrite counted_snoc, app_length. cbn [length]. f_equal; [|f_equal; lia]. f_equal. f_equal.
            unfold ent_full. rewrite fmap_length. cbn [snd]. unfold vrange. rewrite range_length. reflexivity.
        + intros bcp ->. rewrite pre_last. reflexivity.
      - intros bcp ->. fold (cols V). rewrite Nat.sub_diag. cbn [replicate]. apply app_nil_r. }
    intros bcp ->. eapply ok_bind; [apply (scan_cols V ent_full); reflexivity|]. intros bcp [Lb Hb].
    eapply ok_bind with (P := fun '(lcr, bp, bri) => (length lcr = n /\ forall i, i < n -> (exists z, cs i !! z = Some i /\ lcr !! i = Some (Z.of_nat z)) \/
              (i ∉ cs i /\ lcr !! i = Some (-1)%Z)) /\ bp = (ents ent_full (cols V)).*1 /\ bri = (ents ent_full (cols V)).*2).
    2:{ intros [[lcr bp] bri] (H1 & -> & ->). cbn. split; cbn; auto. }
    apply ok_for_post with (I := fun k '(lcr, bp, bri) => (length lcr = n /\ (forall i, i < k -> (exists z, cs i !! z = Some i /\ lcr !! i = Some (Z.of_nat z)) \/
              (i ∉ cs i /\ lcr !! i = Some (-1)%Z)) /\ (forall i, k <= i < n -> lcr !! i = Some (-1)%Z)) /\
              bp = (ents ent_full (colsupto V k)).*1 ++ replicate (length (ents ent_full (cols V)) - length (ents ent_full (colsupto V k))) 0 /\
              bri = (ents ent_full (colsupto V k)).*2 ++ replicate (length (ents ent_full (cols V)) - length (ents ent_full (colsupto V k))) 0%Z); [lia| | |].
    { rewrite replicate_length. split; [split; [reflexivity|split; [lia|intros; apply lookup_replicate_2; lia]]|]. cbn. rewrite !Nat.sub_0_r. auto. }
    2:{ intros [[lcr bp] bri] ((L1 & L2 & L3) & -> & ->). fold (cols V). rewrite Nat.sub_diag. cbn [replicate]. rewrite !app_nil_r. auto. }
    intros i [[lcr bp] bri] Hi ((L1 & L2 & L3) & -> & ->). cbn beta iota.
    eapply ok_bind with (P := fun c => c = cs i).
    { apply (ok_for_row V Hw) with (I := fun jj c => c = inserts [] (reach i jj)); [lia| | |].
      + rewrite reach_first. reflexivity.
      + intros jj c Hj ->. rewrite (get_cl V Hw i) by (assumption || lia). cbn [bind]. pose proof (cl_lt V Hw i jj ltac:(lia) Hj) as Hc.
        apply (ok_for_row V Hw) with (I := fun kk c => c = inserts [] (reach i jj ++ part (cl jj) kk)); [exact Hc| | |].
        * rewrite part_first, app_nil_r. reflexivity.
        * intros kk c Hk ->. rewrite (get_cl V Hw (cl jj)) by assumption. cbn [bind ok]. rewrite part_next, app_assoc, inserts_snoc by lia. reflexivity.
        * intros c ->. rewrite reach_next by lia. reflexivity.
      + intros c ->. reflexivity. }
    intros c ->. unfold get at 1. rewrite (proj2 Hne i) by lia. cbn [bind].
    eapply ok_bind with (P := fun lcr' => length lcr' = n /\ (forall i', i' <> i -> lcr' !! i' = lcr !! i') /\ isidx (cs i) (length (cs i)) i (lcr' !!! i)).
    { apply ok_for_post with (I := fun k lcr' => length lcr' = n /\ (forall i', i' <> i -> lcr' !! i' = lcr !! i') /\ isidx (cs i) k i (lcr' !!! i)); [lia| | |auto].
      - split; [exact L1|]. split; [reflexivity|]. right. split; [apply list_lookup_total_correct, L3; lia|lia].
      - intros k lcr' Hk (M1 & M2 & M3). destruct (lookup_lt_is_Some_2 (cs i) k) as [x Hx]; [lia|]. unfold get. rewrite Hx. cbn [bind]. destruct (Nat.eqb_spec i x) as [<-|Hn].
        + rewrite set_Ok by lia. cbn [ok]. rewrite insert_length. split; [exact M1|]. split; [intros i' Hi'; rewrite list_lookup_insert_ne by auto; auto|].
          left. exists k. split; [apply list_lookup_total_insert; lia|]. split; [lia|exact Hx].
        + cbn [ok]. split; [exact M1|]. split; [exact M2|]. destruct M3 as [(z & H1 & H2 & H3)|[H1 H2]]; [left; exists z; split; [exact H1|]; split; [lia|exact H3]|].
          right. split; [exact H1|]. intros i' Hi'. destruct (decide (i' = k)) as [->|]; [congruence|apply H2; lia]. }
    intros lcr' (M1 & M2 & M3). unfold get at 1. rewrite (proj2 Hnv i) by lia. cbn [bind].
    pose proof (sorted_NoDup _ (cs_sorted i)) as Hnd.
    eapply ok_bind with (P := fun lri => length lri = re i - rb i /\ forall jj, rb i <= jj < re i -> lri !! (jj - rb i) = Some ((ent_full (i, jj)).*2)).
    { apply (ok_for_row V Hw) with (I := fun k lri => length lri = re i - rb i /\ forall jj, rb i <= jj < k -> lri !! (jj - rb i) = Some ((ent_full (i, jj)).*2)); [lia| | |auto].
      { rewrite replicate_length. split; [reflexivity|lia]. }
      intros jj lri Hj (R1 & R2). rewrite (get_cl V Hw i) by (assumption || lia). cbn [bind]. pose proof (cl_lt V Hw i jj ltac:(lia) Hj) as Hc.
      rewrite !(get_rb V Hw), (get_re V Hw) by lia. cbn [bind]. rewrite set_Ok by lia. cbn [bind].
      set (loc := jj - rb i) in *. set (c := cl jj) in *.
      apply ok_for_post with (I := fun k lri' => length lri' = re i - rb i /\ (forall q, q <> loc -> lri' !! q = lri !! q) /\
        exists l, lri' !! loc = Some l /\ length l = re c - rb c /\ forall kk, rb c <= kk < re c -> isidx (cs i) k (cl kk) (l !!! (kk - rb c))); [lia| | |].
      - rewrite insert_length. split; [exact R1|]. split; [intros; rewrite list_lookup_insert_ne by auto; reflexivity|]. eexists. split; [apply list_lookup_insert; lia|]. rewrite replicate_length. split; [reflexivity|].
        intros kk Hk. right. split; [|lia]. apply list_lookup_total_correct, lookup_replicate_2. lia.
      - intros k lri' Hk (U1 & U2 & l & U3 & U4 & U5). destruct (lookup_lt_is_Some_2 (cs i) k) as [x Hx]; [lia|].
        apply (ok_for_row V Hw) with (I := fun k' lri' => length lri' = re i - rb i /\ (forall q, q <> loc -> lri' !! q = lri !! q) /\
          exists l, lri' !! loc = Some l /\ length l = re c - rb c /\ (forall kk, rb c <= kk < k' -> isidx (cs i) (k + 1) (cl kk) (l !!! (kk - rb c))) /\
          (forall kk, k' <= kk < re c -> isidx (cs i) k (cl kk) (l !!! (kk - rb c)))); [exact Hc| | |].
        + split; [exact U1|]. split; [exact U2|]. exists l. split; [exact U3|]. split; [exact U4|]. split; [lia|exact U5].
        + clear U1 U2 l U3 U4 U5 lri'. intros kk lri' Hkk (U1 & U2 & l & U3 & U4 & U5 & U6). unfold get at 1. rewrite Hx. cbn [bind]. rewrite (get_cl V Hw c) by assumption. cbn [bind].
          destruct (Nat.eqb_spec x (cl kk)) as [->|Hn].
          * unfold get. rewrite U3. cbn [bind]. rewrite set_Ok by lia. cbn [bind]. rewrite set_Ok by lia. cbn [ok]. rewrite insert_length. split; [exact U1|]. split; [intros; rewrite list_lookup_insert_ne by auto; auto|].
            eexists. split; [apply list_lookup_insert; lia|]. rewrite insert_length. split; [exact U4|]. split.
            -- intros kk' Hkk'. destruct (decide (kk' = kk)) as [->|Hne']; [rewrite list_lookup_total_insert by lia; left; exists k; split; [reflexivity|]; split; [lia|exact Hx]|].
               rewrite list_lookup_total_insert_ne by lia. apply U5. lia.
            -- intros kk' Hkk'. rewrite list_lookup_total_insert_ne by lia. apply U6. lia.
          * cbn [ok]. split; [exact U1|]. split; [exact U2|]. exists l. split; [exact U3|]. split; [exact U4|]. split; [|intros; apply U6; lia].
            intros kk' Hkk'. destruct (decide (kk' = kk)) as [->|Hne']; [|apply U5; lia]. destruct (U6 kk ltac:(lia)) as [(z & H1 & H2 & H3)|[H1 H2]]; [left; exists z; split; [exact H1|]; split; [lia|exact H3]|].
            right. split; [exact H1|]. intros i' Hi'. destruct (decide (i' = k)) as [->|]; [congruence|apply H2; lia].
        + intros lri'' (W1 & W2 & l' & W3 & W4 & W5 & _). split; [exact W1|]. split; [exact W2|]. exists l'. auto.
      - intros lri' (U1 & U2 & l & U3 & U4 & U5). split; [exact U1|]. intros jj' Hjj'. destruct (decide (jj' = jj)) as [->|Hne']; [|rewrite U2 by (unfold loc; lia); apply R2; lia].
        fold loc. rewrite U3. f_equal. unfold ent_full. cbn [fst snd]. fold c. rewrite <- list_fmap_compose. apply list_eq_lt; [rewrite fmap_length; unfold vrange; rewrite range_length; exact U4|].
        intros q Hq. rewrite (list_lookup_lookup_total_lt l q Hq). unfold vrange. rewrite list_lookup_fmap, range_lookup by lia. cbn. f_equal. apply isidx_fun; [exact Hnd|].
        specialize (U5 (rb c + q) ltac:(lia)). replace (rb c + q - rb c) with q in U5 by lia. exact U5. }
    intros lri (R1 & R2).
    eapply ok_bind with (P := fun '(bp, bri) =>
              bp = (ents ent_full (colsupto V (i + 1))).*1 ++ replicate (length (ents ent_full (cols V)) - length (ents ent_full (colsupto V (i + 1)))) 0 /\
              bri = (ents ent_full (colsupto V (i + 1))).*2 ++ replicate (length (ents ent_full (cols V)) - length (ents ent_full (colsupto V (i + 1)))) 0%Z).
    2:{ intros [bp bri] [-> ->]. cbn [ok]. split; [|auto]. split; [exact M1|]. split.
        - intros i' Hi'. destruct (decide (i' = i)) as [->|Hn']; [|rewrite M2 by exact Hn'; apply L2; lia]. destruct M3 as [(z & H1 & H2 & H3)|[H1 H2]].
          + left. exists z. split; [exact H3|]. rewrite <- H1. apply list_lookup_lookup_total_lt. lia.
          + right. split; [|rewrite <- H1; apply list_lookup_lookup_total_lt; lia]. intros H. apply elem_of_list_lookup in H as [z Hz]. apply (H2 z); [eapply lookup_lt_Some, Hz|exact Hz].
        - intros i' Hi'. rewrite M2 by lia. apply L3. lia. }
    apply (ok_for_row V Hw) with (I := fun jj '(bp, bri) =>
              bp = (ents ent_full (pre V i jj)).*1 ++ replicate (length (ents ent_full (cols V)) - length (ents ent_full (pre V i jj))) 0 /\
              bri = (ents ent_full (pre V i jj)).*2 ++ replicate (length (ents ent_full (cols V)) - length (ents ent_full (pre V i jj))) 0%Z); [lia| | |].
    - rewrite pre_first. auto.
    - intros jj [bp bri] Hj [-> ->]. rewrite (get_cl V Hw i) by (assumption || lia). cbn [bind]. pose proof (cl_lt V Hw i jj ltac:(lia) Hj) as Hc.
      rewrite (get_rb V Hw) by lia. cbn [bind]. set (c := cl jj) in *. pose proof (ents_pre_le V ent_full i jj ltac:(lia) Hj) as Hle.
      assert (length (ent_full (i, jj)) = re c - rb c) as Len by (unfold ent_full; rewrite fmap_length; cbn [snd]; unfold vrange; rewrite range_length; reflexivity).
      set (X := ents ent_full (pre V i jj)) in *. set (T := length (ents ent_full (cols V))) in *.
      apply (ok_for_row V Hw) with (I := fun kk '(bp, bri) =>
              bp = (X ++ take (kk - rb c) (ent_full (i, jj))).*1 ++ replicate (T - (length X + (kk - rb c))) 0 /\
              bri = (X ++ take (kk - rb c) (ent_full (i, jj))).*2 ++ replicate (T - (length X + (kk - rb c))) 0%Z); [exact Hc| | |].
      + rewrite Nat.sub_diag, Nat.add_0_r. cbn [take]. rewrite app_nil_r. auto.
      + intros kk [bp bri] Hk [-> ->]. rewrite (get_rb V Hw) by exact Hc. cbn [bind]. unfold get. rewrite (Hs i) by lia. cbn [bind].
        rewrite <- pre_length. rewrite Hb by (pose proof (pre_lt V i jj ltac:(lia) Hj); lia). rewrite take_pre by (assumption || lia). fold X. cbn [bind].
        destruct (lookup_lt_is_Some_2 (ent_full (i, jj)) (kk - rb c)) as [[k z] Hkz]; [lia|].
        assert (length X + (kk - rb c) = length (X ++ take (kk - rb c) (ent_full (i, jj)))) as El by (rewrite app_length, take_length; lia).
        assert (k = kk) as ->. { unfold ent_full in Hkz. cbn [fst snd] in Hkz. fold c in Hkz. unfold vrange in Hkz. rewrite list_lookup_fmap, range_lookup in Hkz by lia. cbn in Hkz. injection Hkz as H1 _. lia. }
        replace (length X + (kk - rb c)) with (length (X ++ take (kk - rb c) (ent_full (i, jj))).*1) at 2 by (rewrite fmap_length; lia).
        rewrite set_next by lia. cbn [bind]. rewrite R2 by lia. cbn [bind]. rewrite list_lookup_fmap, Hkz. cbn [fmap option_fmap option_map bind snd].
        replace (length X + (kk - rb c)) with (length (X ++ take (kk - rb c) (ent_full (i, jj))).*2) at 2 by (rewrite fmap_length; lia).
        rewrite set_next by lia. cbn [bind ok]. replace (kk + 1 - rb c) with (S (kk - rb c)) by lia. rewrite (take_S_r _ _ _ Hkz), app_assoc, !(fmap_app _ (X ++ _)).
        split; f_equal; f_equal; lia.
      + intros [bp bri] [-> ->]. rewrite <- Len, firstn_all, pre_next, ents_snoc by lia. fold X. rewrite app_length. auto.
    - intros [bp bri] [-> ->]. rewrite pre_last. auto.
  Qed.
End Full.

(** ** The incomplete pattern *)
Section Incomplete.
  Context {A : Type} (V : srmat A).
  Notation n := (nbrows V).
  Notation rb i := (browptr V !!! i).
  Notation re i := (browendptr V !!! i).
  Notation cl j := (bcolind V !!! j).
  Hypothesis Hw : wf_view V.

  Definition hits (i kk : nat) (l : list nat) : list (nat * Z) := (fun ll => (kk, Z.of_nat (ll - rb i))) <$> filter (fun ll => cl ll = cl kk) l.
  Definition ent_inc (c : nat * nat) : list (nat * Z) := vrange V (cl c.2) ≫= (fun kk => hits c.1 kk (vrange V c.1)).

  Lemma ok_matches {St} i c (body : nat -> nat -> St -> res St) (P : list (nat * Z) -> St -> Prop) (Q : St -> Prop) s : i < n -> c < n ->
    P [] s ->
    (forall kk ll l s, rb c <= kk < re c -> rb i <= ll < re i -> P l s ->
      (cl ll = cl kk -> (l ++ [(kk, Z.of_nat (ll - rb i))]) `prefix_of` (vrange V c ≫= (fun kk => hits i kk (vrange V i))) -> ok (body kk ll s) (P (l ++ [(kk, Z.of_nat (ll - rb i))]))) /\
      (cl ll <> cl kk -> ok (body kk ll s) (P l))) ->
    (forall s, P (vrange V c ≫= (fun kk => hits i kk (vrange V i))) s -> Q s) ->
    ok (for_row V c (fun kk s => for_row V i (body kk) s) s) Q.
  Proof.
    intros Hi Hc H0 Hb HQ.
    apply (ok_for_row V Hw) with (I := fun kk s => P (range (rb c) kk ≫= (fun kk => hits i kk (vrange V i))) s); [exact Hc| | |exact HQ].
    - rewrite range_nil by lia. exact H0.
    - intros kk s' Hk H. apply (ok_for_row V Hw) with (I := fun ll s => P ((range (rb c) kk ≫= (fun kk => hits i kk (vrange V i))) ++ hits i kk (range (rb i) ll)) s); [exact Hi| | |].
      + rewrite (range_nil (rb i)) by lia. cbn. rewrite app_nil_r. exact H.
      + intros ll s'' Hl H'. destruct (Hb kk ll _ s'' Hk Hl H') as [H1 H2]. rewrite range_snoc by lia.
        assert (forall l l', hits i kk (l ++ l') = hits i kk l ++ hits i kk l') as Happ by (intros; unfold hits; rewrite filter_app, fmap_app; reflexivity). rewrite Happ.
        destruct (decide (cl ll = cl kk)) as [e|e].
        * replace (hits i kk [ll]) with [(kk, Z.of_nat (ll - rb i))] by (unfold hits; rewrite filter_cons_True, filter_nil by exact e; reflexivity). rewrite app_assoc. apply H1; [exact e|].
          rewrite <- app_assoc. change (vrange V c) with (range (rb c) (re c)). rewrite (range_app (rb c) kk (re c)) by lia. rewrite bind_app. apply prefix_app. rewrite (range_cons kk) by lia. cbn [mbind list_bind].
          apply prefix_app_r. unfold vrange. rewrite (range_app (rb i) ll (re i)) by lia. rewrite (range_cons ll (re i)) by lia. unfold hits. rewrite filter_app, filter_cons_True by exact e. rewrite fmap_app. apply prefix_app.
          rewrite fmap_cons. eexists. reflexivity.
        * replace (hits i kk [ll]) with (@nil (nat * Z)) by (unfold hits; rewrite filter_cons_False, filter_nil by exact e; reflexivity). rewrite app_nil_r. apply H2, e.
      + intros s'' H'. rewrite range_snoc, bind_app, bind_one by lia. exact H'.
  Qed.

  Lemma incomplete_done : ok (left_incomplete_SAI_pattern V) (done V (unknowns V) ent_inc).
  Proof.
    unfold left_incomplete_SAI_pattern.
    eapply ok_bind with (P := fun '(srp, nv, ne, total) => (length srp = n + 1 /\ srp !! 0 = Some 0 /\ forall i, i < n -> srp !! (i + 1) = Some (re i - rb i)) /\
      (length nv = n /\ forall i, i < n -> nv !! i = Some (re i - rb i)) /\ (length ne = n /\ forall i, i < n -> ne !! i = Some (re i - rb i)) /\
      total = length (ents ent_inc (cols V))).
    { apply ok_for_post with (I := fun k '(srp, nv, ne, total) => (length srp = n + 1 /\ srp !! 0 = Some 0 /\ forall i, i < k -> srp !! (i + 1) = Some (re i - rb i)) /\
        (length nv = n /\ forall i, i < k -> nv !! i = Some (re i - rb i)) /\ (length ne = n /\ forall i, i < k -> ne !! i = Some (re i - rb i)) /\
        total = length (ents ent_inc (colsupto V k))); [lia| | |auto].
      { rewrite !replicate_length. split; [|split; [|split]]; [split; [reflexivity|split; [apply lookup_replicate_2; lia|lia]]|split; [reflexivity|lia]|split; [reflexivity|lia]|reflexivity]. }
      intros i [[[srp nv] ne] total] Hi ((S1 & S2 & S3) & (N1 & N2) & (E1 & E2) & ->). cbn beta iota.
      rewrite get_re, get_rb by (assumption || lia). cbn [bind]. rewrite set_Ok by lia. cbn [bind]. unfold get at 1. rewrite list_lookup_insert by lia. cbn [bind].
      rewrite set_Ok by lia. cbn [bind]. unfold get at 1. rewrite list_lookup_insert by lia. cbn [bind]. rewrite set_Ok by lia. cbn [bind].
      eapply ok_bind with (P := fun t => t = length (ents ent_inc (colsupto V (i + 1)))).
      - apply (ok_for_row V Hw) with (I := fun jj t => t = length (ents ent_inc (pre V i jj))); [lia| | |].
        + rewrite pre_first. reflexivity.
        + intros jj t Hj ->. rewrite (get_cl V Hw i) by (assumption || lia). cbn [bind]. pose proof (cl_lt V Hw i jj ltac:(lia) Hj) as Hc.
          apply (ok_matches i (cl jj)) with (P := fun l t => t = length (ents ent_inc (pre V i jj)) + length l); [lia|exact Hc|cbn; lia| |].
          * intros kk ll l t Hk Hl ->. rewrite (get_cl V Hw i ll), (get_cl V Hw (cl jj) kk) by (assumption || lia). cbn [bind]. split; intros e; [intros _|];
              (destruct (Nat.eqb_spec (cl ll) (cl kk)); [|]; try contradiction); cbn [ok]; rewrite ?app_length; cbn [length]; lia.
          * intros t ->. rewrite pre_next, ents_snoc, app_length by lia. reflexivity.
        + intros t ->. rewrite pre_last. reflexivity.
      - intros t ->. cbn [ok]. rewrite !insert_length. split; [|split; [|split]].
        + split; [exact S1|]. split; [rewrite list_lookup_insert_ne by lia; exact S2|]. intros i' Hi'. destruct (decide (i' = i)) as [->|Hne]; [apply list_lookup_insert; lia|].
          rewrite list_lookup_insert_ne by lia. apply S3. lia.
        + split; [exact N1|]. intros i' Hi'. destruct (decide (i' = i)) as [->|Hne]; [apply list_lookup_insert; lia|]. rewrite list_lookup_insert_ne by lia. apply N2. lia.
        + split; [exact E1|]. intros i' Hi'. destruct (decide (i' = i)) as [->|Hne]; [apply list_lookup_insert; lia|]. rewrite list_lookup_insert_ne by lia. apply E2. lia.
        + reflexivity. }
    intros [[[srp0 nv] ne] total] (S0 & Hnv & Hne & ->). cbn beta iota. destruct S0 as (S1 & S2 & S3).
    eapply ok_bind; [apply (scan_rows V srp0 S1 S2 S3)|]. clear srp0 S1 S2 S3. intros srp [Ls Hs]. unfold get at 1. rewrite (Hs n) by lia. cbn [bind].
    eapply ok_bind with (P := fun '(bcp, lcr) => bcp = counted ent_inc (cols V) /\
      length lcr = n /\ forall i, i < n -> (exists z, unknowns V i !! z = Some i /\ lcr !! i = Some (Z.of_nat z)) \/ (i ∉ unknowns V i /\ lcr !! i = Some (-1)%Z)).
    { apply ok_for_post with (I := fun k '(bcp, lcr) => bcp = counted ent_inc (colsupto V k) ++ replicate (length (cols V) - length (colsupto V k)) 0 /\
        length lcr = n /\ (forall i, i < k -> (exists z, unknowns V i !! z = Some i /\ lcr !! i = Some (Z.of_nat z)) \/ (i ∉ unknowns V i /\ lcr !! i = Some (-1)%Z)) /\
        forall i, k <= i < n -> lcr !! i = Some (-1)%Z); [lia| | |].
      - cbn. rewrite Nat.sub_0_r, Nat.add_1_r, replicate_length. split; [reflexivity|]. split; [reflexivity|]. split; [lia|]. intros i Hi. apply lookup_replicate_2. lia.
      - intros i [bcp lcr] Hi (-> & L1 & L2 & L3). unfold get at 1. rewrite (Hs i) by lia. cbn [bind].
        apply (ok_for_row V Hw) with (I := fun jj '(bcp, lcr') => bcp = counted ent_inc (pre V i jj) ++ replicate (length (cols V) - length (pre V i jj)) 0 /\
          length lcr' = n /\ (forall i', i' <> i -> lcr' !! i' = lcr !! i') /\
          ((exists j, rb i <= j < jj /\ cl j = i /\ lcr' !! i = Some (Z.of_nat (j - rb i))) \/ ((forall j, rb i <= j < jj -> cl j <> i) /\ lcr' !! i = Some (-1)%Z))); [lia| | |].
        + rewrite pre_first. split; [reflexivity|]. split; [exact L1|]. split; [reflexivity|]. right. split; [lia|apply L3; lia].
        + intros jj [bcp lcr'] Hj (-> & M1 & M2 & M3). rewrite (get_rb V Hw) by lia. cbn [bind]. rewrite (get_cl V Hw i) by lia. cbn [bind].
          pose proof (cl_lt V Hw i jj ltac:(lia) Hj) as Hc. pose proof (pre_lt V i jj ltac:(lia) Hj) as Hp.
          eapply ok_bind with (P := fun bcp => bcp = counted ent_inc (pre V i (jj + 1)) ++ replicate (length (cols V) - length (pre V i (jj + 1))) 0).
          * apply (ok_matches i (cl jj)) with (P := fun l bcp => bcp = counted ent_inc (pre V i jj) ++ length l :: replicate (length (cols V) - length (pre V i jj) - 1) 0); [lia|exact Hc| | |].
            -- f_equal. replace (length (cols V) - length (pre V i jj)) with (S (length (cols V) - length (pre V i jj) - 1)) at 1 by lia. reflexivity.
            -- intros kk ll l bcp Hk Hl ->. rewrite (get_cl V Hw i ll), (get_cl V Hw (cl jj) kk) by (assumption || lia). cbn [bind].
               assert (length (colsupto V i) + (jj - rb i) + 1 = length (counted ent_inc (pre V i jj))) as El by (rewrite counted_length, pre_length; lia).
               split; intros e; [intros _|]; (destruct (Nat.eqb_spec (cl ll) (cl kk)); [|]; try contradiction); [|reflexivity].
               rewrite El. unfold get. rewrite list_lookup_middle by reflexivity. cbn [bind]. rewrite set_middle. cbn [ok]. rewrite app_length. reflexivity.
            -- intros bcp ->. rewrite pre_next, counted_snoc, app_length by lia. cbn [length]. rewrite <- app_assoc. cbn [app]. do 2 f_equal. f_equal. lia.
          * intros bcp ->. destruct (Nat.eqb_spec (cl jj) i) as [e|e].
            -- rewrite set_Ok by lia. cbn [bind ok]. split; [reflexivity|]. rewrite insert_length. split; [exact M1|]. split; [intros; rewrite list_lookup_insert_ne by auto; auto|].
               left. exists jj. split; [lia|]. split; [exact e|]. apply list_lookup_insert. lia.
            -- cbn [bind ok]. split; [reflexivity|]. split; [exact M1|]. split; [exact M2|]. destruct M3 as [(j & H1 & H2 & H3)|[H1 H2]]; [left; exists j; split; [lia|auto]|].
               right. split; [|exact H2]. intros j Hj'. destruct (decide (j = jj)) as [->|]; [exact e|apply H1; lia].
        + intros [bcp lcr'] (-> & M1 & M2 & M3). rewrite pre_last. split; [reflexivity|]. split; [exact M1|]. split.
          * intros i' Hi'. destruct (decide (i' = i)) as [->|Hn]; [|rewrite M2 by exact Hn; apply L2; lia]. destruct M3 as [(j & H1 & H2 & H3)|[H1 H2]].
            -- left. exists (j - rb i). split; [|exact H3]. unfold unknowns, vrange. rewrite list_lookup_fmap, range_lookup by lia. cbn. f_equal. replace (rb i + (j - rb i)) with j by lia. exact H2.
            -- right. split; [|exact H2]. unfold unknowns. intros H. apply elem_of_list_fmap in H as (j & e & H). apply elem_of_range in H. apply (H1 j H). congruence.
          * intros i' Hi'. rewrite M2 by lia. apply L3. lia.
      - intros [bcp lcr] (-> & L1 & L2 & L3). fold (cols V). rewrite Nat.sub_diag. cbn [replicate]. rewrite app_nil_r. auto. }
    intros [bcp0 lcr] [-> Hl]. eapply ok_bind; [apply (scan_cols V ent_inc); reflexivity|]. intros bcp [Lb Hb].
    eapply ok_bind with (P := fun '(bp, bri) => bp = (ents ent_inc (cols V)).*1 /\ bri = (ents ent_inc (cols V)).*2).
    2:{ intros [bp bri] [-> ->]. cbn. split; cbn; auto. destruct Hne as [H1 H2]. split; [exact H1|]. intros i Hi. rewrite (H2 i Hi). unfold unknowns, vrange. rewrite fmap_length, range_length. reflexivity. }
    apply ok_for_post with (I := fun k '(bp, bri) =>
              bp = (ents ent_inc (colsupto V k)).*1 ++ replicate (length (ents ent_inc (cols V)) - length (ents ent_inc (colsupto V k))) 0 /\
              bri = (ents ent_inc (colsupto V k)).*2 ++ replicate (length (ents ent_inc (cols V)) - length (ents ent_inc (colsupto V k))) 0%Z); [lia| | |].
    { cbn. rewrite !Nat.sub_0_r. auto. }
    2:{ intros [bp bri] (-> & ->). fold (cols V). rewrite Nat.sub_diag. cbn [replicate]. rewrite !app_nil_r. auto. }
    intros i [bp bri] Hi (-> & ->). cbn beta iota. unfold get at 1. rewrite (Hs i) by lia. cbn [bind].
    apply (ok_for_row V Hw) with (I := fun jj '(bp, bri) =>
              bp = (ents ent_inc (pre V i jj)).*1 ++ replicate (length (ents ent_inc (cols V)) - length (ents ent_inc (pre V i jj))) 0 /\
              bri = (ents ent_inc (pre V i jj)).*2 ++ replicate (length (ents ent_inc (cols V)) - length (ents ent_inc (pre V i jj))) 0%Z); [lia| | |].
    - rewrite pre_first. auto.
    - intros jj [bp bri] Hj [-> ->]. rewrite (get_cl V Hw i) by (assumption || lia). cbn [bind]. pose proof (cl_lt V Hw i jj ltac:(lia) Hj) as Hc.
      rewrite (get_rb V Hw) by lia. cbn [bind]. rewrite <- pre_length. unfold get at 1. rewrite Hb by (pose proof (pre_lt V i jj ltac:(lia) Hj); lia). rewrite take_pre by (assumption || lia). cbn [bind].
      pose proof (ents_pre_le V ent_inc i jj ltac:(lia) Hj) as Hle.
      set (X := ents ent_inc (pre V i jj)) in *. set (T := length (ents ent_inc (cols V))) in *.
      eapply ok_bind with (P := fun '(bp, bri, num) => bp = (X ++ ent_inc (i, jj)).*1 ++ replicate (T - (length X + num)) 0 /\ bri = (X ++ ent_inc (i, jj)).*2 ++ replicate (T - (length X + num)) 0%Z /\ num = length (ent_inc (i, jj))).
      + apply (ok_matches i (cl jj)) with (P := fun l '(bp, bri, num) => bp = (X ++ l).*1 ++ replicate (T - (length X + num)) 0 /\ bri = (X ++ l).*2 ++ replicate (T - (length X + num)) 0%Z /\ num = length l); [lia|exact Hc| | |].
        * rewrite Nat.add_0_r, app_nil_r. auto.
        * intros kk ll l [[bp bri] num] Hk Hl' (-> & -> & ->). rewrite (get_cl V Hw i ll), (get_cl V Hw (cl jj) kk) by (assumption || lia). cbn [bind].
          split; intros e; [intros Hpre|]; (destruct (Nat.eqb_spec (cl ll) (cl kk)); [|]; try contradiction); [|cbn [ok]; auto].
          apply prefix_length in Hpre. change (vrange V (cl jj) ≫= (fun kk => hits i kk (vrange V i))) with (ent_inc (i, jj)) in Hpre. rewrite app_length in Hpre. cbn [length] in Hpre.
          assert (length X + length l = length (X ++ l).*1) as E1 by (rewrite fmap_length, app_length; reflexivity).
          assert (length X + length l = length (X ++ l).*2) as E2 by (rewrite fmap_length, app_length; reflexivity).
          rewrite E1 at 2. rewrite set_next by lia. cbn [bind]. rewrite E2 at 2. rewrite set_next by lia. cbn [bind ok].
          rewrite app_length. cbn [length]. rewrite app_assoc, !(fmap_app _ (X ++ l)). split; [|split]; [f_equal; f_equal; lia|f_equal; f_equal; lia|lia].
        * intros [[bp bri] num] H. exact H.
      + intros [[bp bri] num] (-> & -> & ->). cbn [ok]. rewrite pre_next, ents_snoc by lia. fold X. rewrite app_length. auto.
    - intros [bp bri] [-> ->]. rewrite pre_last. auto.
  Qed.
End Incomplete.
