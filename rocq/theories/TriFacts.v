(** * TriFacts: elementary facts about the dense specification *)
From Verif Require Import Base Alg TriSpec.

Lemma flat_div bs i p : p < bs -> (i * bs + p) / bs = i.
Proof. intros H. rewrite Nat.div_add_l by lia. rewrite Nat.div_small by lia. lia. Qed.
Lemma flat_mod bs i p : p < bs -> (i * bs + p) mod bs = p.
Proof. intros H. rewrite Nat.add_comm, Nat.mod_add by lia. apply Nat.mod_small. lia. Qed.
Lemma flat_eq bs i p j q : p < bs -> q < bs -> i * bs + p = j * bs + q <-> i = j /\ p = q.
Proof.
  intros Hp Hq. split; [|intros [-> ->]; reflexivity]. intros E.
  assert (i = j) as -> by (rewrite <- (flat_div bs i p Hp), E; apply flat_div; auto). lia.
Qed.
Lemma unflat bs n I : I < n * bs -> exists i p, I = i * bs + p /\ i < n /\ p < bs.
Proof.
  intros H. assert (bs <> 0) as Hb by nia. exists (I / bs), (I mod bs).
  pose proof (Nat.div_mod I bs Hb). pose proof (Nat.mod_upper_bound I bs Hb).
  split; [lia|]. split; [apply Nat.div_lt_upper_bound; lia|lia].
Qed.

Section Facts.
  Context {F : Type} {O : SOps F} {R : CRing F}.
  Add Ring Fr : cring.
  Open Scope s_scope.

  Lemma bsum_split3 n i (f : nat -> F) : (i < n)%nat ->
    bsum n f = bsum n (fun c => if decide (c < i)%nat then f c else s0) + f i +
               bsum n (fun c => if decide (i < c)%nat then f c else s0).
  Proof.
    intros Hi. rewrite <- (bsum_delta n i f Hi). rewrite <- !bsum_add. apply bsum_ext. intros c Hc.
    destruct (decide (c < i)%nat), (decide (c = i)), (decide (i < c)%nat); try lia; ring.
  Qed.

  Lemma is_prod_mprod n A B (x y b : list F) :
    is_prod n B x y -> is_prod n A y b -> is_prod n (mprod n A B) x b.
  Proof.
    intros H1 H2 i Hi. rewrite <- (H2 i Hi). unfold mprod.
    rewrite (bsum_ext n _ (fun j => bsum n (fun k => A i k * (B k j * vat x j)))).
    2: { intros j Hj. rewrite <- bsum_mul_r. apply bsum_ext. intros. ring. }
    rewrite bsum_swap. apply bsum_ext. intros k Hk. rewrite bsum_mul_l. f_equal. apply H1; auto.
  Qed.
  (** the vector A x *)
  Definition mvec (n : nat) (A : nat -> nat -> F) (x : list F) : list F :=
    (fun i => bsum n (fun j => A i j * vat x j)) <$> seq 0 n.
  Lemma vat_fmap_seq (g : nat -> F) n i : (i < n)%nat -> vat (g <$> seq 0 n) i = g i.
  Proof. intros Hi. apply vat_eq. rewrite list_lookup_fmap, lookup_seq_lt by done. reflexivity. Qed.
  Lemma mvec_length n A x : length (mvec n A x) = n.
  Proof. unfold mvec. rewrite fmap_length, seq_length. reflexivity. Qed.
  Lemma mvec_prod n A x : is_prod n A x (mvec n A x).
  Proof. intros i Hi. unfold mvec. rewrite vat_fmap_seq by done. reflexivity. Qed.
  Lemma is_prod_mprod_inv n A B (x b : list F) :
    is_prod n (mprod n A B) x b -> is_prod n A (mvec n B x) b.
  Proof.
    intros H i Hi. rewrite <- (H i Hi). unfold mprod.
    rewrite (bsum_ext n _ (fun j => bsum n (fun k => A i j * (B j k * vat x k)))).
    2: { intros j Hj. unfold mvec. rewrite vat_fmap_seq by done. rewrite <- bsum_mul_l. reflexivity. }
    rewrite bsum_swap. apply bsum_ext. intros k Hk. rewrite <- bsum_mul_r. apply bsum_ext. intros. ring.
  Qed.

  (** X x = y iff Y y = x for inverse X and Y, at the level of functions *)
  Lemma inverse_apply n X Y (f g : nat -> F) :
    is_inverse n X Y ->
    (forall i, (i < n)%nat -> f i = bsum n (fun j => X i j * g j)) ->
    (forall i, (i < n)%nat -> g i = bsum n (fun j => Y i j * f j)).
  Proof.
    intros Hinv H i Hi.
    rewrite (bsum_ext n _ (fun j => bsum n (fun k => Y i j * X j k * g k))).
    2: { intros j Hj. rewrite (H j Hj), <- bsum_mul_l. apply bsum_ext. intros. ring. }
    rewrite bsum_swap.
    rewrite (bsum_ext n _ (fun k => ident i k * g k)).
    2: { intros k Hk. rewrite bsum_mul_r. f_equal. apply (Hinv i k Hi Hk). }
    rewrite (bsum_single n i); auto.
    - unfold ident. rewrite decide_True by done. ring.
    - intros k Hk Hne. unfold ident. rewrite decide_False by auto. ring.
  Qed.
  Lemma is_inverse_sym n (X Y : nat -> nat -> F) : is_inverse n X Y -> is_inverse n Y X.
  Proof. intros H i j Hi Hj. destruct (H i j Hi Hj); auto. Qed.
End Facts.
