(** * AssemblyFacts: which entries the assembly calls write, and what *)
From Verif Require Import Base Alg SRMatrix Nd Coo ColMat BlockMat PropLevels.
Open Scope nat_scope.

Lemma mapr_Ok {A B} (f : A -> res B) (g : A -> B) l : (forall a, a ∈ l -> f a = Ok (g a)) -> mapr f l = Ok (g <$> l).
Proof.
  induction l as [|a l IH]; intros H; [reflexivity|]. cbn [mapr]. rewrite H by left. cbn [bind].
  rewrite IH by (intros b Hb; apply H; right; exact Hb). reflexivity.
Qed.
Lemma elem_of_concat {A} (x : A) ls : x ∈ concat ls <-> exists l, l ∈ ls /\ x ∈ l.
Proof.
  induction ls as [|l ls IH]; simpl.
  - split; [intros H; apply elem_of_nil in H as []|intros (? & H & _); apply elem_of_nil in H as []].
  - rewrite elem_of_app, IH. split.
    + intros [H|(l' & H1 & H2)]; [exists l; split; [left|exact H]|exists l'; split; [right|]; assumption].
    + intros (l' & H1 & H2). apply elem_of_cons in H1 as [-> |H1]; [left; exact H2|right; eauto].
Qed.
(** lists of steps, one list for each element of [l], that write to different entries *)
Lemma NoDup_steps {A F} (f : A -> list (nat * F)) l :
  NoDup l -> (forall a, a ∈ l -> NoDup (f a).*1) ->
  (forall a b p, a ∈ l -> b ∈ l -> p ∈ (f a).*1 -> p ∈ (f b).*1 -> a = b) ->
  NoDup (concat (f <$> l)).*1.
Proof.
  induction l as [|a l IH]; intros Hnd H1 H2; simpl; [constructor|]. apply NoDup_cons in Hnd as [Ha Hnd]. rewrite fmap_app.
  apply NoDup_app. split; [apply H1; left|]. split.
  - intros p Hp Hp'. apply elem_of_list_fmap in Hp' as (u & -> & Hu). apply elem_of_concat in Hu as (m & Hm & Hu).
    apply elem_of_list_fmap in Hm as (b & -> & Hb). apply Ha. rewrite (H2 a b u.1); [exact Hb|left|right; exact Hb|exact Hp|].
    apply elem_of_list_fmap. eauto.
  - apply IH; [exact Hnd|intros; apply H1; right; assumption|]. intros b c p Hb Hc. apply H2; right; assumption.
Qed.

(** The list of steps [l] writes to the entries at which [w] is defined, once each. *)
Record writes {F} (n : nat) (w : nat -> option F) (l : list (nat * F)) : Prop := {
  wr_once : NoDup l.*1;
  wr_lt : forall u, u ∈ l -> u.1 < n;
  wr_what : forall p a, p < n -> (p, a) ∈ l <-> w p = Some a
}.

Section Run.
  Context {F : Type} {O : SOps F}.
  Lemma run_puts n w l (v : list F) : length v = n -> writes n w l ->
    ok (doall l put1 v) (fun v' => length v' = n /\ forall p, p < n -> vat v' p = default (vat v p) (w p)).
  Proof.
    intros Hl [Hnd Hlt Hw].
    eapply ok_mono; [apply ok_doall with (I := fun dn v' => length v' = n /\
      forall p, p < n -> (forall a, (p, a) ∈ dn -> vat v' p = a) /\ (p ∉ dn.*1 -> vat v' p = vat v p))|].
    - split; [exact Hl|]. intros p Hp. split; [intros a Ha; apply elem_of_nil in Ha as []|reflexivity].
    - intros dn [p a] rest v' E [Hl' H]. assert (p < n) as Hp by (apply (Hlt (p, a)); rewrite E; apply elem_of_app; right; left).
      unfold put1. simpl. apply ok_set; [lia|]. rewrite insert_length. split; [exact Hl'|].
      intros p' Hp'. destruct (H p' Hp') as [H1 H2]. destruct (decide (p = p')) as [<-|Hne].
      + assert (vat (<[p:=a]> v') p = a) as Ep by (unfold vat; rewrite list_lookup_insert by lia; reflexivity).
        assert (p ∉ dn.*1) as Hp''.
        { rewrite E, fmap_app in Hnd. apply NoDup_app in Hnd as (_ & Hx & _). intros Hin. apply (Hx p Hin). left. }
        split; [|intros Hx; exfalso; apply Hx; rewrite fmap_app; apply elem_of_app; right; left].
        intros b Hb. rewrite Ep. apply elem_of_app in Hb as [Hb|Hb]; [exfalso; apply Hp''; apply elem_of_list_fmap; exists (p, b); auto|].
        apply elem_of_list_singleton in Hb. congruence.
      + assert (vat (<[p:=a]> v') p' = vat v' p') as -> by (unfold vat; rewrite list_lookup_insert_ne by exact Hne; reflexivity). split.
        * intros b Hb. apply H1. apply elem_of_app in Hb as [Hb|Hb]; [exact Hb|apply elem_of_list_singleton in Hb; congruence].
        * intros Hx. apply H2. intros Hin. apply Hx. rewrite fmap_app. apply elem_of_app. left. exact Hin.
    - intros v' [Hl' H]. split; [exact Hl'|]. intros p Hp. destruct (H p Hp) as [H1 H2]. destruct (w p) as [a|] eqn:Ew; simpl.
      + apply H1, Hw; assumption.
      + apply H2. intros Hin. apply elem_of_list_fmap in Hin as ([p' a] & E & Hu). simpl in E. subst p'. apply Hw in Hu; [congruence|exact Hp].
  Qed.
  Context {R : CRing F}.
  Add Ring Fr : cring.
  (** what the additions [l] add to entry [p] *)
  Definition amt (p : nat) (l : list (nat * F)) : F := lsum (fun u => if decide (u.1 = p) then u.2 else s0) l.
  Lemma amt_writes n w l p : writes n w l -> p < n -> amt p l = default s0 (w p).
  Proof.
    intros [Hnd Hlt Hw] Hp. destruct (w p) as [a|] eqn:Ew; simpl.
    - apply Hw in Ew; [|exact Hp]. apply elem_of_list_split in Ew as (l1 & l2 & ->). unfold amt. rewrite lsum_app. simpl.
      rewrite fmap_app in Hnd. apply NoDup_app in Hnd as (_ & Hx & Hn2). simpl in Hx, Hn2. apply NoDup_cons in Hn2 as [Hn2 _].
      rewrite decide_True by reflexivity. rewrite !lsum_zero; [ring| |].
      + intros u Hu. rewrite decide_False; [reflexivity|]. intros <-. apply Hn2. apply elem_of_list_fmap. eauto.
      + intros u Hu. rewrite decide_False; [reflexivity|]. intros <-. apply (Hx u.1); [apply elem_of_list_fmap; eauto|left].
    - apply lsum_zero. intros [p' a] Hu. simpl. destruct (decide (p' = p)) as [->|]; [|reflexivity]. apply Hw in Hu; [congruence|exact Hp].
  Qed.
  Lemma run_adds l : forall (v : list F), (forall u, u ∈ l -> u.1 < length v) ->
    ok (doall l add1 v) (fun v' => length v' = length v /\ forall p, p < length v -> vat v' p = (vat v p + amt p l)%s).
  Proof.
    induction l as [|[p a] l IH]; intros v H; cbn [doall].
    - simpl. split; [reflexivity|]. intros p Hp. unfold amt. simpl. ring.
    - assert (p < length v) as Hp by (apply (H (p, a)); left). unfold add1 at 1. simpl.
      rewrite vat_get by exact Hp. cbn [bind]. rewrite set_Ok by exact Hp. cbn [bind].
      eapply ok_mono; [apply IH; intros u Hu; rewrite insert_length; apply H; right; exact Hu|].
      intros v' [Hl' H']. rewrite insert_length in Hl', H'. split; [exact Hl'|]. intros p' Hp'. rewrite H' by exact Hp'.
      unfold amt. simpl. unfold vat at 1. destruct (decide (p = p')) as [<-|Hne].
      + rewrite list_lookup_insert by exact Hp. simpl. ring.
      + rewrite list_lookup_insert_ne by exact Hne. fold (vat v p'). ring.
  Qed.
  Lemma amt_concat p ls : amt p (concat ls) = lsum (amt p) ls.
  Proof. induction ls as [|l ls IH]; simpl; [reflexivity|]. unfold amt at 1. rewrite lsum_app. fold (amt p l) (amt p (concat ls)). rewrite IH. reflexivity. Qed.
End Run.

Lemma interleaving_perm {A} (ls : list (list A)) r : interleaving ls r -> r ≡ₚ concat ls.
Proof.
  induction 1 as [ls H|ls i a l r E _ IH].
  - induction H as [|l ls <- _ IH]; simpl; [reflexivity|exact IH].
  - rewrite IH. clear r IH. revert i E. induction ls as [|m ls IH]; intros i E; [rewrite lookup_nil in E; discriminate|].
    destruct i as [|i]; simpl in E |- *; [injection E as ->; simpl; reflexivity|].
    rewrite <- (IH i E). apply Permutation_middle.
Qed.
(** every way of running one thread after the other is an interleaving *)
Lemma interleaving_exists {A} (ls : list (list A)) : interleaving ls (concat ls).
Proof.
  assert (forall n (ls : list (list A)), length (concat ls) = n -> interleaving ls (concat ls)) as H; [|eapply H; reflexivity].
  induction n as [|n IH]; intros ls0 Hn.
  - rewrite (nil_length_inv _ Hn). constructor. apply Forall_forall. intros l Hl. destruct l as [|a l]; [reflexivity|].
    assert (a ∈ concat ls0) as Ha by (apply elem_of_concat; exists (a :: l); split; [exact Hl|left]).
    rewrite (nil_length_inv _ Hn) in Ha. apply elem_of_nil in Ha as [].
  - assert (exists k a l rest, ls0 = replicate k [] ++ (a :: l) :: rest) as (k & a & l & rest & ->).
    { clear IH. induction ls0 as [|[|a l] ls0 IH]; simpl in Hn; [discriminate| |exists 0, a, l, ls0; reflexivity].
      destruct (IH Hn) as (k & a & l & rest & ->). exists (S k), a, l, rest. reflexivity. }
    assert (forall x, concat (replicate k [] ++ x :: rest) = x ++ concat rest) as E by (intros x; induction k as [|k IHk]; simpl; auto).
    rewrite E in Hn |- *. simpl in Hn |- *. apply il_step with (i := k) (l := l).
    + rewrite lookup_app_r by (rewrite replicate_length; lia). rewrite replicate_length, Nat.sub_diag. reflexivity.
    + replace (<[k:=l]> (replicate k [] ++ (a :: l) :: rest)) with (replicate k [] ++ l :: rest).
      * rewrite <- E. apply IH. rewrite E. lia.
      * rewrite insert_app_r_alt by (rewrite replicate_length; lia). rewrite replicate_length, Nat.sub_diag. reflexivity.
Qed.

Section Block.
  Context {F : Type} {O : SOps F}.
  Variables (bs : nat) (M : srmat F).
  Hypotheses (Hbs : 0 < bs) (Hw : wf_pat M) (Hv : wf_vals bs M).
  Notation bs2 := (bs * bs).
  Lemma bs2_pos : 0 < bs2. Proof. nia. Qed.
  (** the steps of one block *)
  Definition blk (b : list F) (j : nat) : list (nat * F) := (fun k => (j * bs2 + k, vat b k)) <$> seq 0 bs2.
  Lemma block_steps_eq j b : bs2 <= length b -> block_steps bs j b = Ok (blk b j).
  Proof.
    intros Hb. apply mapr_Ok. intros k Hk. apply elem_of_seq in Hk. rewrite vat_get by lia. reflexivity.
  Qed.
  Lemma elem_blk b j p a : (p, a) ∈ blk b j <-> p / bs2 = j /\ a = vat b (p mod bs2).
  Proof.
    pose proof bs2_pos as H2. unfold blk. rewrite elem_of_list_fmap. split.
    - intros (k & [= -> ->] & Hk). apply elem_of_seq in Hk. rewrite (Nat.add_comm (j * bs2)), Nat.div_add, Nat.mod_add by lia.
      rewrite Nat.div_small, Nat.mod_small by lia. split; [lia|reflexivity].
    - intros [<- ->]. exists (p mod bs2). split.
      + f_equal. rewrite (Nat.mul_comm (p / bs2)). apply Nat.div_mod. lia.
      + apply elem_of_seq. pose proof (Nat.mod_upper_bound p bs2). lia.
  Qed.
  Lemma NoDup_blk b j : NoDup (blk b j).*1.
  Proof.
    unfold blk. rewrite <- list_fmap_compose. apply (NoDup_fmap_2_strong _); [|apply NoDup_seq]. intros x y _ _. simpl. lia.
  Qed.
  Lemma elem_blk1 b j p : p ∈ (blk b j).*1 <-> p / bs2 = j.
  Proof.
    rewrite elem_of_list_fmap. split.
    - intros ([p' a] & -> & H). apply elem_blk in H as [H _]. exact H.
    - intros H. exists (p, vat b (p mod bs2)). split; [reflexivity|]. apply elem_blk. auto.
  Qed.
  Definition bw (r c : nat) (b : list F) (p : nat) : option F :=
    if decide (rowof M (p / bs2) = r /\ col M (p / bs2) = c) then Some (vat b (p mod bs2)) else None.
  Lemma pos_div p : p < length (vals M) -> p / bs2 < nnz M.
  Proof. rewrite Hv. intros H. apply Nat.div_lt_upper_bound; [nia|]. lia. Qed.
  Lemma row_blocks_writes r c b lo hi : r < nbrows M -> lo = rp M r -> hi = rp M (r + 1) -> bs2 <= length b ->
    ok (let! l := mapr (fun j => let! c' := get (bcolind M) j in if c' =? c then block_steps bs j b else Ok []) (range lo hi) in Ok (concat l))
       (writes (length (vals M)) (bw r c b)).
  Proof.
    intros Hr -> -> Hb. pose proof bs2_pos as H2.
    assert (forall j, rp M r <= j < rp M (r + 1) -> inrow M r j) as Hin by (intros j Hj; split; assumption).
    rewrite (mapr_Ok _ (fun j => if decide (col M j = c) then blk b j else [])).
    2:{ intros j Hj. apply elem_of_range in Hj. unfold get. rewrite (wf_bcolind M j Hw) by (eapply inrow_lt; eauto). cbn [bind].
        destruct (Nat.eqb_spec (col M j) c); [rewrite decide_True by assumption; apply block_steps_eq, Hb|rewrite decide_False by assumption; reflexivity]. }
    cbn [bind]. apply ok_ret.
    assert (forall j p, p ∈ (if decide (col M j = c) then blk b j else []).*1 -> p / bs2 = j) as Hp1.
    { intros j p. destruct (decide _); [apply elem_blk1|intros H; apply elem_of_nil in H as []]. }
    assert (forall p a, (p, a) ∈ concat ((fun j => if decide (col M j = c) then blk b j else []) <$> range (rp M r) (rp M (r + 1))) <->
      (rp M r <= p / bs2 < rp M (r + 1) /\ col M (p / bs2) = c) /\ a = vat b (p mod bs2)) as Hel.
    { intros p a. rewrite elem_of_concat. split.
      - intros (l & Hl & Hu). apply elem_of_list_fmap in Hl as (j & -> & Hj). apply elem_of_range in Hj.
        destruct (decide (col M j = c)) as [Hc|]; [|apply elem_of_nil in Hu as []]. apply elem_blk in Hu as [<- ->]. auto.
      - intros [[H1 H3] ->]. exists (blk b (p / bs2)). split; [|apply elem_blk; auto]. apply elem_of_list_fmap. exists (p / bs2).
        rewrite decide_True by exact H3. split; [reflexivity|apply elem_of_range; exact H1]. }
    split.
    - apply NoDup_steps; [apply NoDup_range|intros j _; destruct (decide _); [apply NoDup_blk|constructor]|].
      intros j j' p _ _ H1 H3. apply Hp1 in H1. apply Hp1 in H3. congruence.
    - intros [p a] Hu. apply Hel in Hu as [[H1 _] _]. simpl. rewrite Hv. assert (p / bs2 < nnz M) as H3 by (apply (inrow_lt M r); auto).
      pose proof (Nat.div_mod p bs2 ltac:(lia)). pose proof (Nat.mod_upper_bound p bs2 ltac:(lia)). nia.
    - intros p a Hp. rewrite Hel. unfold bw. pose proof (pos_div p Hp) as Hj.
      assert (rp M r <= p / bs2 < rp M (r + 1) <-> rowof M (p / bs2) = r) as Hrow.
      { split; [intros H; apply rowof_inrow; auto|]. intros <-. apply (inrow_rowof M _ Hw Hj). }
      rewrite Hrow. destruct (decide _); split; intuition congruence.
  Qed.
  Lemma updateBlock_writes i j b : i / bs < nbrows M -> bs2 <= length b ->
    ok (updateBlock_steps bs M i j b) (writes (length (vals M)) (bw (i / bs) (j / bs) b)).
  Proof.
    intros Hi Hb. unfold updateBlock_steps, get at 1 2. rewrite !(wf_browptr M _ Hw) by lia. cbn [bind]. apply row_blocks_writes; auto.
  Qed.
  Lemma submitBlock_writes i j b : wf_end M -> i / bs < nbrows M -> bs2 <= length b ->
    ok (submitBlock_steps bs M i j b) (writes (length (vals M)) (bw (i / bs) (j / bs) b)).
  Proof.
    intros [_ He] Hi Hb. unfold submitBlock_steps, get at 1 2. rewrite (wf_browptr M _ Hw), He by lia. cbn [bind]. apply row_blocks_writes; auto.
  Qed.
  Lemma updateDiagBlock_writes i b : wf_diag M -> wf_nodup M -> i / bs < nbrows M -> bs2 <= length b ->
    ok (updateDiagBlock_steps bs M i b) (writes (length (vals M)) (bw (i / bs) (i / bs) b)).
  Proof.
    intros Hd Hnd Hi Hb. pose proof bs2_pos as H2. unfold updateDiagBlock_steps, get. rewrite (wf_diagind M _ Hd Hi). cbn [bind]. rewrite block_steps_eq by exact Hb.
    apply ok_ret. destruct (proj2 Hd _ Hi) as [D1 D2]. assert (inrow M (i / bs) (dg M (i / bs))) as Hin by (split; assumption). split.
    - apply NoDup_blk.
    - intros [p a] Hu. apply elem_blk in Hu as [H1 _]. simpl. rewrite Hv. assert (p / bs2 < nnz M) as H3 by (rewrite H1; eapply inrow_lt; eauto).
      pose proof (Nat.div_mod p bs2 ltac:(lia)). pose proof (Nat.mod_upper_bound p bs2 ltac:(lia)). nia.
    - intros p a Hp. rewrite elem_blk. unfold bw. pose proof (pos_div p Hp) as Hj.
      assert (p / bs2 = dg M (i / bs) <-> rowof M (p / bs2) = i / bs /\ col M (p / bs2) = i / bs) as ->.
      { split; [intros ->; split; [apply rowof_inrow; assumption|exact D2]|]. intros [H1 H3]. apply (Hnd (i / bs)); auto; [|congruence].
        rewrite <- H1. apply inrow_rowof; assumption. }
      destruct (decide _); split; intuition congruence.
  Qed.
End Block.

Section Scalar.
  Context {F : Type} {O : SOps F}.
  Variable (M : srmat F).
  Hypotheses (Hw : wf_pat M) (Hs : wf_sorted M) (Hv : wf_vals 1 M).
  (** all entries (i,c), ..., (i,c+n-1) are stored *)
  Definition present_row (i c n : nat) : Prop := forall k, k < n -> pos M i (c + k) <> None.
  Lemma contiguous i c n p0 : i < nbrows M -> present_row i c n -> pos M i c = Some p0 ->
    forall k, k < n -> pos M i (c + k) = Some (p0 + k).
  Proof.
    intros Hi Hp H0. induction k as [|k IH]; intros Hk; [rewrite !Nat.add_0_r; exact H0|].
    specialize (IH ltac:(lia)). destruct (pos M i (c + S k)) as [p|] eqn:E; [|exfalso; apply (Hp (S k) Hk E)].
    apply pos_Some in IH as [[_ I1] C1]; [|exact Hi]. pose proof E as E'. apply pos_Some in E' as [[_ I2] C2]; [|exact Hi]. f_equal.
    destruct (lt_eq_lt_dec p (p0 + S k)) as [[H|H]|H]; [|exact H|].
    - destruct (decide (p = p0 + k)) as [->|Hne]; [lia|]. assert (col M p < col M (p0 + k)) by (apply (Hs i); lia). lia.
    - assert (col M (p0 + k) < col M (p0 + S k)) by (apply (Hs i); lia). assert (col M (p0 + S k) < col M p) by (apply (Hs i); lia). lia.
  Qed.
  (** the steps of one row *)
  Definition rowl (startj bsj stride locrow : nat) (b : list F) (i : nat) : list (nat * F) :=
    match pos M i startj with Some p0 => (fun k => (p0 + k, vat b (locrow * stride + k))) <$> seq 0 bsj | None => [] end.
  Lemma row_steps_none startj stride locrow b l : (forall jj, jj ∈ l -> jj < nnz M) -> row_steps M startj 0 stride locrow b l 0 = Ok [].
  Proof.
    induction l as [|jj l IH]; intros H; cbn [row_steps]; [reflexivity|]. unfold get. rewrite (wf_bcolind M jj Hw) by (apply H; left). cbn [bind].
    destruct (_ <? _); [apply IH; intros; apply H; right; assumption|reflexivity].
  Qed.
  Lemma row_steps_skip startj bsj stride locrow b l r k : (forall jj, jj ∈ l -> jj < nnz M /\ col M jj < startj) ->
    row_steps M startj bsj stride locrow b (l ++ r) k = row_steps M startj bsj stride locrow b r k.
  Proof.
    induction l as [|jj l IH]; intros H; cbn [row_steps app]; [reflexivity|]. destruct (H jj) as [H1 H2]; [left|].
    unfold get. rewrite (wf_bcolind M jj Hw) by exact H1. cbn [bind]. rewrite (proj2 (Nat.ltb_lt _ _) H2). apply IH. intros; apply H; right; assumption.
  Qed.
  Lemma row_steps_eq startj bsj stride locrow b i : i < nbrows M -> present_row i startj bsj -> locrow * stride + bsj <= length b ->
    row_steps M startj bsj stride locrow b (range (rp M i) (rp M (i + 1))) 0 = Ok (rowl startj bsj stride locrow b i).
  Proof.
    intros Hi Hp Hb. destruct (decide (bsj = 0)) as [->|Hb0].
    { rewrite row_steps_none; [unfold rowl; destruct (pos _ _ _); reflexivity|]. intros jj Hj. apply elem_of_range in Hj. apply (inrow_lt M i); [exact Hw|split; assumption]. }
    unfold rowl. destruct (pos M i startj) as [p0|] eqn:E0; [|exfalso; apply (Hp 0); [lia|rewrite Nat.add_0_r; exact E0]].
    pose proof (contiguous i startj bsj p0 Hi Hp E0) as Hc.
    assert (forall k, k < bsj -> inrow M i (p0 + k) /\ col M (p0 + k) = startj + k) as Hk by (intros k Hk; apply pos_Some; auto).
    assert (rp M i <= p0 /\ p0 + bsj <= rp M (i + 1)) as [Hlo Hhi].
    { destruct (Hk 0 ltac:(lia)) as [[_ H1] _]. destruct (Hk (bsj - 1) ltac:(lia)) as [[_ H2] _]. lia. }
    assert (rp M (i + 1) <= nnz M) as Hn by (apply rp_mono; [exact Hw|lia|lia]).
    rewrite (range_app _ p0) by lia. rewrite row_steps_skip.
    2:{ intros jj Hj. apply elem_of_range in Hj. split; [lia|]. destruct (Hk 0 ltac:(lia)) as [_ H1]. rewrite !Nat.add_0_r in H1. rewrite <- H1. apply (Hs i); lia. }
    assert (forall m k, k + m = bsj -> row_steps M startj bsj stride locrow b (range (p0 + k) (rp M (i + 1))) k =
      Ok ((fun k => (p0 + k, vat b (locrow * stride + k))) <$> seq k m)) as H.
    { induction m as [|m IH]; intros k Hkm; cbn [seq fmap list_fmap].
      - assert (k = bsj) as -> by lia. destruct (decide (p0 + bsj < rp M (i + 1))) as [Hlt|Hge]; [|rewrite range_nil by lia; reflexivity].
        rewrite range_cons by exact Hlt. cbn [row_steps]. unfold get. rewrite (wf_bcolind M _ Hw) by lia. cbn [bind].
        destruct (Hk 0 ltac:(lia)) as [_ H1]. assert (col M (p0 + 0) < col M (p0 + bsj)) by (apply (Hs i); lia).
        destruct (Nat.ltb_spec (col M (p0 + bsj)) startj); [lia|]. rewrite Nat.eqb_refl. reflexivity.
      - destruct (Hk k ltac:(lia)) as [_ H1]. rewrite range_cons by lia. cbn [row_steps]. unfold get at 1. rewrite (wf_bcolind M _ Hw) by lia. cbn [bind].
        destruct (Nat.ltb_spec (col M (p0 + k)) startj); [lia|]. destruct (Nat.eqb_spec k bsj); [lia|]. rewrite vat_get by lia. cbn [bind].
        replace (p0 + k + 1) with (p0 + (k + 1)) by lia. rewrite IH by lia. cbn [bind]. replace (k + 1) with (S k) by lia. reflexivity. }
    specialize (H bsj 0 eq_refl). rewrite Nat.add_0_r in H. exact H.
  Qed.
  Lemma elem_rowl startj bsj stride locrow b i p a : i < nbrows M -> present_row i startj bsj ->
    (p, a) ∈ rowl startj bsj stride locrow b i <->
    (inrow M i p /\ startj <= col M p < startj + bsj) /\ a = vat b (locrow * stride + (col M p - startj)).
  Proof.
    intros Hi Hp. unfold rowl. split.
    - intros H. destruct (pos M i startj) as [p0|] eqn:E0; [|apply elem_of_nil in H as []].
      apply elem_of_list_fmap in H as (k & [= -> ->] & Hk). apply elem_of_seq in Hk.
      pose proof (contiguous i startj bsj p0 Hi Hp E0 k ltac:(lia)) as Hc. apply pos_Some in Hc as [H1 H2]; [|exact Hi].
      rewrite H2. split; [split; [exact H1|lia]|]. f_equal. lia.
    - intros [[H1 H2] ->]. assert (0 < bsj) as Hb0 by lia. destruct (pos M i startj) as [p0|] eqn:E0; [|exfalso; apply (Hp 0 Hb0); rewrite Nat.add_0_r; exact E0].
      pose proof (contiguous i startj bsj p0 Hi Hp E0 (col M p - startj) ltac:(lia)) as Hc.
      replace (startj + (col M p - startj)) with (col M p) in Hc by lia. rewrite (pos_of M i p (sorted_nodup M Hs) H1) in Hc. injection Hc as Hc.
      apply elem_of_list_fmap. exists (col M p - startj). split; [f_equal; exact Hc|apply elem_of_seq; lia].
  Qed.
  Lemma NoDup_rowl startj bsj stride locrow b i : NoDup (rowl startj bsj stride locrow b i).*1.
  Proof.
    unfold rowl. destruct (pos M i startj); [|constructor]. rewrite <- list_fmap_compose. apply (NoDup_fmap_2_strong _); [|apply NoDup_seq]. intros x y _ _. simpl. lia.
  Qed.
  Definition sw (starti startj bsi bsj stride : nat) (b : list F) (p : nat) : option F :=
    if decide (starti <= rowof M p < starti + bsi /\ startj <= col M p < startj + bsj)
    then Some (vat b ((rowof M p - starti) * stride + (col M p - startj))) else None.
  Definition present (starti startj bsi bsj : nat) : Prop :=
    starti + bsi <= nbrows M /\ forall i, starti <= i < starti + bsi -> present_row i startj bsj.
  Lemma rowls_writes starti startj bsi bsj stride b : present starti startj bsi bsj ->
    writes (length (vals M)) (sw starti startj bsi bsj stride b)
      (concat ((fun i => rowl startj bsj stride (i - starti) b i) <$> range starti (starti + bsi))).
  Proof.
    intros [Hn Hp]. assert (length (vals M) = nnz M) as Hl by (rewrite Hv; lia).
    assert (forall i p, starti <= i < starti + bsi -> p ∈ (rowl startj bsj stride (i - starti) b i).*1 -> inrow M i p) as H1.
    { intros i p Hi H. apply elem_of_list_fmap in H as ([p' a] & -> & H). apply elem_rowl in H as [[H _] _]; [exact H|lia|apply Hp, Hi]. }
    assert (forall p a, (p, a) ∈ concat ((fun i => rowl startj bsj stride (i - starti) b i) <$> range starti (starti + bsi)) <->
      exists i, starti <= i < starti + bsi /\ (inrow M i p /\ startj <= col M p < startj + bsj) /\ a = vat b ((i - starti) * stride + (col M p - startj))) as Hel.
    { intros p a. rewrite elem_of_concat. split.
      - intros (l & Hl' & H). apply elem_of_list_fmap in Hl' as (i & -> & Hi). apply elem_of_range in Hi. exists i. split; [exact Hi|]. apply elem_rowl in H; [exact H|lia|apply Hp, Hi].
      - intros (i & Hi & H). exists (rowl startj bsj stride (i - starti) b i). split; [|apply elem_rowl; [lia|apply Hp, Hi|exact H]].
        apply elem_of_list_fmap. exists i. split; [reflexivity|apply elem_of_range; exact Hi]. }
    split.
    - apply NoDup_steps; [apply NoDup_range|intros; apply NoDup_rowl|]. intros i i' p Hi Hi' H2 H3.
      apply elem_of_range in Hi, Hi'. apply (inrow_unique M i i' p Hw); apply H1; assumption.
    - intros [p a] H. apply Hel in H as (i & Hi & [H _] & _). simpl. rewrite Hl. eapply inrow_lt; eauto.
    - intros p a Hpl. rewrite Hel. rewrite Hl in Hpl. unfold sw. split.
      + intros (i & Hi & [H2 H3] & ->). rewrite (rowof_inrow M i p Hw H2). rewrite decide_True by auto. reflexivity.
      + destruct (decide _) as [[H2 H3]|]; [|discriminate]. intros [= <-]. exists (rowof M p). split; [exact H2|]. split; [split; [apply inrow_rowof; assumption|exact H3]|reflexivity].
  Qed.
  Lemma rows_steps_eq starti startj bsi bsj stride b : present starti startj bsi bsj -> (bsi - 1) * stride + bsj <= length b ->
    rows_steps M starti startj bsi bsj stride b = Ok (concat ((fun i => rowl startj bsj stride (i - starti) b i) <$> range starti (starti + bsi))).
  Proof.
    intros [Hn Hp] Hb. unfold rows_steps. rewrite (mapr_Ok _ (fun i => rowl startj bsj stride (i - starti) b i)); [reflexivity|].
    intros i Hi. apply elem_of_range in Hi. unfold get. rewrite !(wf_browptr M _ Hw) by lia. cbn [bind]. apply row_steps_eq; [lia|apply Hp, Hi|]. nia.
  Qed.
  Lemma rows_steps_writes starti startj bsi bsj stride b : present starti startj bsi bsj -> (bsi - 1) * stride + bsj <= length b ->
    ok (rows_steps M starti startj bsi bsj stride b) (writes (length (vals M)) (sw starti startj bsi bsj stride b)).
  Proof. intros H Hb. rewrite rows_steps_eq by assumption. apply ok_ret, rowls_writes, H. Qed.
  Lemma updateDiagBlock1_writes starti b bs : wf_diag M -> present starti starti bs bs -> bs * bs <= length b ->
    ok (updateDiagBlock1_steps M starti b bs) (writes (length (vals M)) (sw starti starti bs bs bs b)).
  Proof.
    intros Hd H Hb. pose proof H as [Hn Hp]. unfold updateDiagBlock1_steps. rewrite (mapr_Ok _ (fun i => rowl starti bs bs (i - starti) b i)); [apply ok_ret, rowls_writes, H|].
    intros i Hi. apply elem_of_range in Hi. assert (i < nbrows M) as Hin by lia. unfold get at 1. rewrite (wf_diagind M i Hd Hin). cbn [bind].
    unfold rowl. destruct (pos M i starti) as [p0|] eqn:E0; [|exfalso; apply (Hp i Hi 0); [lia|rewrite Nat.add_0_r; exact E0]].
    pose proof (contiguous i starti bs p0 Hin (Hp i Hi) E0 (i - starti) ltac:(lia)) as Hc. replace (starti + (i - starti)) with i in Hc by lia.
    rewrite (pos_diag M i (sorted_nodup M Hs) Hd Hin) in Hc. injection Hc as ->. destruct (Nat.ltb_spec (p0 + (i - starti)) (i - starti)); [lia|].
    apply mapr_Ok. intros k Hk. apply elem_of_seq in Hk. rewrite vat_get by nia. cbn [bind]. repeat f_equal. lia.
  Qed.
End Scalar.
