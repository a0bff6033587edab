(** * Base: outcomes, checked arrays and loops

    Common vocabulary of the model. Nothing here models a particular file of
    /repo; it fixes how C++ statements are represented:
    - every function that can misbehave returns a [res];
    - [get]/[set] are C array accesses [a[i]] and [a[i] = v] on an array of the
      list's length: outside of it the C++ behaviour is undefined, here [UB];
    - [for_ lo hi body s] is [for(i = lo; i < hi; i++) body] where [s] holds the
      variables the body modifies. *)
From Coq Require Export String.
From stdpp Require Export list list_numbers.
From Coq Require Export Lia Arith.

Inductive res (A : Type) : Type :=
| Ok (a : A)          (* normal result *)
| UB                  (* undefined behaviour: bad access, null or uninitialised data *)
| Throw (msg : string)(* a C++ exception leaves the function *)
| Fuel.               (* loop budget of the model exhausted (shown unreachable) *)
Arguments Ok {A} a. Arguments UB {A}. Arguments Throw {A} msg. Arguments Fuel {A}.

Definition bind {A B} (m : res A) (k : A -> res B) : res B :=
  match m with Ok a => k a | UB => UB | Throw e => Throw e | Fuel => Fuel end.

Declare Scope res_scope.
Delimit Scope res_scope with res.
Notation "'let!' x := m 'in' k" := (bind m (fun x => k))
  (at level 200, x pattern, m at level 100, k at level 200, right associativity) : res_scope.
Open Scope res_scope.

Definition get {A} (l : list A) (i : nat) : res A :=
  match l !! i with Some a => Ok a | None => UB end.
Definition set {A} (l : list A) (i : nat) (a : A) : res (list A) :=
  if decide (i < length l) then Ok (<[i:=a]> l) else UB.

Fixpoint for_n {St} (n i : nat) (body : nat -> St -> res St) (s : St) : res St :=
  match n with
  | 0 => Ok s
  | S n' => let! s' := body i s in for_n n' (i + 1) body s'
  end.
Definition for_ {St} (lo hi : nat) (body : nat -> St -> res St) (s : St) : res St :=
  for_n (hi - lo) lo body s.

(** ** Reasoning: [m] returns normally with a value satisfying [P] *)
Definition ok {A} (m : res A) (P : A -> Prop) : Prop :=
  match m with Ok a => P a | _ => False end.

Lemma ok_inv {A} (m : res A) P : ok m P <-> exists a, m = Ok a /\ P a.
Proof.
  destruct m; simpl; split; try tauto; try (intros (x & H & _); discriminate).
  - eauto.
  - intros (x & [= ->] & H); exact H.
Qed.
Lemma ok_ret {A} (a : A) (P : A -> Prop) : P a -> ok (Ok a) P.
Proof. exact id. Qed.
Lemma ok_bind {A B} (m : res A) (k : A -> res B) P Q :
  ok m P -> (forall a, P a -> ok (k a) Q) -> ok (bind m k) Q.
Proof. destruct m; simpl; try tauto. intros H1 H2; apply H2, H1. Qed.
Lemma ok_mono {A} (m : res A) (P Q : A -> Prop) : ok m P -> (forall a, P a -> Q a) -> ok m Q.
Proof. destruct m; simpl; try tauto. intros H1 H2; apply H2, H1. Qed.
Lemma ok_and {A} (m : res A) (P Q : A -> Prop) : ok m P -> ok m Q -> ok m (fun a => P a /\ Q a).
Proof. destruct m; simpl; tauto. Qed.
Lemma ok_get {A} (l : list A) i (P : A -> Prop) a : l !! i = Some a -> P a -> ok (get l i) P.
Proof. unfold get. intros -> H. exact H. Qed.
Lemma ok_get_lt {A} (l : list A) i (P : A -> Prop) :
  i < length l -> (forall a, l !! i = Some a -> P a) -> ok (get l i) P.
Proof.
  intros Hi HP. destruct (lookup_lt_is_Some_2 l i Hi) as [a Ha].
  eapply ok_get; eauto.
Qed.
Lemma get_Some {A} (l : list A) i a : get l i = Ok a <-> l !! i = Some a.
Proof. unfold get. destruct (l !! i); split; congruence. Qed.
Lemma set_Ok {A} (l : list A) i a : i < length l -> set l i a = Ok (<[i:=a]> l).
Proof. intros H. unfold set. rewrite decide_True; auto. Qed.
Lemma ok_set {A} (l : list A) i a (P : list A -> Prop) :
  i < length l -> P (<[i:=a]> l) -> ok (set l i a) P.
Proof. intros Hi HP. rewrite set_Ok by done. exact HP. Qed.

Lemma ok_for_n {St} n : forall i (body : nat -> St -> res St) (s : St) (I : nat -> St -> Prop),
  I i s ->
  (forall j s', i <= j < i + n -> I j s' -> ok (body j s') (I (j + 1))) ->
  ok (for_n n i body s) (I (i + n)).
Proof.
  induction n as [|n IH]; intros i body s I H0 Hstep; cbn [for_n].
  - replace (i + 0) with i by lia. exact H0.
  - eapply ok_bind; [apply Hstep; [lia|exact H0]|].
    intros s' Hs'. replace (i + S n) with (i + 1 + n) by lia.
    apply IH; [exact Hs'|]. intros j s'' Hj. apply Hstep. lia.
Qed.
Lemma ok_for {St} lo hi (body : nat -> St -> res St) (s : St) (I : nat -> St -> Prop) :
  lo <= hi -> I lo s ->
  (forall j s', lo <= j < hi -> I j s' -> ok (body j s') (I (j + 1))) ->
  ok (for_ lo hi body s) (I hi).
Proof.
  intros Hle H0 Hstep. unfold for_.
  replace hi with (lo + (hi - lo)) at 2 by lia.
  apply ok_for_n; [exact H0|]. intros; apply Hstep; [lia|assumption].
Qed.
(* the form mostly used: weaken the invariant at the end *)
Lemma ok_for_post {St} lo hi (body : nat -> St -> res St) (s : St) (I : nat -> St -> Prop) (Q : St -> Prop) :
  lo <= hi -> I lo s ->
  (forall j s', lo <= j < hi -> I j s' -> ok (body j s') (I (j + 1))) ->
  (forall s', I hi s' -> Q s') ->
  ok (for_ lo hi body s) Q.
Proof. intros H1 H2 H3 H4. eapply ok_mono; [apply ok_for; eauto|exact H4]. Qed.
Lemma for_empty {St} lo hi (body : nat -> St -> res St) s : hi <= lo -> for_ lo hi body s = Ok s.
Proof. intros H. unfold for_. replace (hi - lo) with 0 by lia. reflexivity. Qed.

Lemma bind_Ok {A B} (m : res A) (k : A -> res B) b :
  bind m k = Ok b <-> exists a, m = Ok a /\ k a = Ok b.
Proof.
  destruct m; simpl; split; try discriminate; try (intros (x & H & _); discriminate).
  - eauto.
  - intros (x & [= ->] & H); exact H.
Qed.
Lemma bind_assoc {A B C} (m : res A) (k : A -> res B) (h : B -> res C) :
  bind (bind m k) h = bind m (fun a => bind (k a) h).
Proof. destruct m; reflexivity. Qed.
Lemma for_n_ext {St} n : forall i (b b' : nat -> St -> res St) s,
  (forall j s', i <= j < i + n -> b j s' = b' j s') -> for_n n i b s = for_n n i b' s.
Proof.
  induction n as [|n IH]; intros i b b' s H; cbn [for_n]; [reflexivity|].
  rewrite H by lia. destruct (b' i s); simpl; try reflexivity.
  apply IH. intros; apply H; lia.
Qed.
Lemma for_ext {St} lo hi (b b' : nat -> St -> res St) s :
  (forall j s', lo <= j < hi -> b j s' = b' j s') -> for_ lo hi b s = for_ lo hi b' s.
Proof. intros H. apply for_n_ext. intros; apply H; lia. Qed.
Lemma for_n_app {St} n1 n2 : forall i (b : nat -> St -> res St) s,
  for_n (n1 + n2) i b s = bind (for_n n1 i b s) (for_n n2 (i + n1) b).
Proof.
  induction n1 as [|n1 IH]; intros i b s; cbn [for_n plus].
  - simpl. replace (i + 0) with i by lia. reflexivity.
  - destruct (b i s); simpl; try reflexivity. rewrite IH.
    replace (i + 1 + n1) with (i + S n1) by lia. reflexivity.
Qed.
Lemma for_snoc {St} lo hi (b : nat -> St -> res St) s :
  lo <= hi -> for_ lo (hi + 1) b s = bind (for_ lo hi b s) (b hi).
Proof.
  intros H. unfold for_. replace (hi + 1 - lo) with ((hi - lo) + 1) by lia.
  rewrite for_n_app. replace (lo + (hi - lo)) with hi by lia.
  destruct (for_n (hi - lo) lo b s); simpl; try reflexivity.
  destruct (b hi a); reflexivity.
Qed.

(** Indices [lo, hi) in increasing order. *)
Definition range (lo hi : nat) : list nat := seq lo (hi - lo).
Lemma elem_of_range lo hi i : i ∈ range lo hi <-> lo <= i < hi.
Proof. unfold range. rewrite elem_of_seq. lia. Qed.
Lemma range_nil lo hi : hi <= lo -> range lo hi = [].
Proof. intros H. unfold range. replace (hi - lo) with 0 by lia. reflexivity. Qed.
Lemma range_snoc lo hi : lo <= hi -> range lo (hi + 1) = range lo hi ++ [hi].
Proof.
  intros H. unfold range. replace (hi + 1 - lo) with ((hi - lo) + 1) by lia.
  rewrite seq_app. simpl. repeat f_equal. lia.
Qed.
Lemma range_cons lo hi : lo < hi -> range lo hi = lo :: range (lo + 1) hi.
Proof.
  intros H. unfold range. replace (hi - lo) with (S (hi - (lo+1))) by lia.
  cbn [seq]. replace (S lo) with (lo + 1) by lia. reflexivity.
Qed.
Lemma range_app lo mid hi : lo <= mid <= hi -> range lo hi = range lo mid ++ range mid hi.
Proof.
  intros H. unfold range. replace (hi - lo) with ((mid - lo) + (hi - mid)) by lia.
  rewrite seq_app. repeat f_equal. lia.
Qed.
Lemma range_length lo hi : length (range lo hi) = hi - lo.
Proof. apply seq_length. Qed.
Lemma NoDup_range lo hi : NoDup (range lo hi).
Proof. unfold range. apply NoDup_seq. Qed.
Lemma range_lookup lo hi k : k < hi - lo -> range lo hi !! k = Some (lo + k).
Proof. intros H. apply lookup_seq; lia. Qed.

(** List equality by lookups. *)
Lemma list_eq_lt {A} (l1 l2 : list A) :
  length l1 = length l2 -> (forall i, i < length l1 -> l1 !! i = l2 !! i) -> l1 = l2.
Proof.
  intros Hl H. apply list_eq. intros i.
  destruct (decide (i < length l1)) as [Hi|Hi]; [apply H, Hi|].
  rewrite !lookup_ge_None_2 by lia. reflexivity.
Qed.

(** [omp parallel for] whose iterations touch different entries: the iterations run
    in an arbitrary order [l], a permutation of the index range. *)
Fixpoint forl {St} (l : list nat) (body : nat -> St -> res St) (s : St) : res St :=
  match l with
  | [] => Ok s
  | i :: l' => let! s' := body i s in forl l' body s'
  end.
Lemma ok_forl {St} (I : list nat -> St -> Prop) (body : nat -> St -> res St) l : forall s,
  I [] s ->
  (forall dn i rest s', l = dn ++ i :: rest -> I dn s' -> ok (body i s') (I (dn ++ [i]))) ->
  ok (forl l body s) (I l).
Proof.
  assert (forall rest dn s, l = dn ++ rest -> I dn s ->
    (forall dn i rest s', l = dn ++ i :: rest -> I dn s' -> ok (body i s') (I (dn ++ [i]))) ->
    ok (forl rest body s) (I l)) as H.
  { induction rest as [|i rest IH]; intros dn s E H0 Hs; cbn [forl].
    - rewrite app_nil_r in E. subst. exact H0.
    - eapply ok_bind; [eapply Hs; eauto|]. intros s' Hs'. apply (IH (dn ++ [i])); auto.
      rewrite <- app_assoc. exact E. }
  intros s H0 Hs. apply (H l [] s); auto.
Qed.
Lemma for_forl {St} lo hi (body : nat -> St -> res St) s :
  for_ lo hi body s = forl (range lo hi) body s.
Proof.
  unfold for_, range. generalize (hi - lo) as n. intros n. revert lo s.
  induction n as [|n IH]; intros lo s; cbn [for_n seq forl]; [reflexivity|].
  replace (lo + 1) with (S lo) by lia. destruct (body lo s); simpl; auto.
Qed.

(** Collect the results of [f] over a list. *)
Fixpoint mapr {A B} (f : A -> res B) (l : list A) : res (list B) :=
  match l with
  | [] => Ok []
  | a :: l' => let! b := f a in let! bs := mapr f l' in Ok (b :: bs)
  end.
Lemma ok_mapr {A B} (f : A -> res B) l (Q : nat -> B -> Prop) :
  (forall k a, l !! k = Some a -> ok (f a) (Q k)) ->
  ok (mapr f l) (fun bs => length bs = length l /\ forall k b, bs !! k = Some b -> Q k b).
Proof.
  revert Q. induction l as [|a l IH]; intros Q H; cbn [mapr].
  - split; [reflexivity|]. intros k b Hk. rewrite lookup_nil in Hk. discriminate.
  - eapply ok_bind; [apply (H 0 a eq_refl)|]. intros b Hb.
    eapply ok_bind; [apply (IH (fun k => Q (S k))); intros k a' Hk; apply (H (S k) a' Hk)|].
    intros bs [Hl Hk]. split; [simpl; lia|]. intros [|k] b' Hb'; simpl in Hb'.
    + injection Hb' as <-. exact Hb.
    + apply Hk. exact Hb'.
Qed.
Lemma reverse_rev {A} (l : list A) : reverse l = rev l.
Proof. symmetry. apply rev_alt. Qed.
