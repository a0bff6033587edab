(** * PropVecDim: vectors of the wrong length given through PETSc (C86) *)
From Coq Require Import ZArith.
From Verif Require Import Base Alg SRMatrix Async Nd Kernels IluApply IluPattern IluFactor Sgs Levels ColMat Coo CooRead Factory Petsc Objects Inst.
Local Open Scope string_scope.

(** ** Specification *)
(** the call can only end like this: it is refused with an error code, both vectors are released, and nothing is noted in the context *)
Definition refused {F} (c : @ctx F) (st : pstate) (z : list F) (a : after) : Prop :=
  (exists msg, a_status a = PetscErr msg) /\ a_held a = false /\ a_ctx a = c /\ a_obj a = st /\ a_vec a = Some z.
(** the call can only be undefined *)
Definition undefined {F} (m : nd (@after F)) : Prop := (exists o, m o) /\ forall o, m o -> exists a, o = Ok a /\ a_status a = Undefined.

(** ** Facts *)
Lemma forl_UB {St} (P : St -> Prop) (body : nat -> St -> res St) (l : list nat) :
  (forall i s, P s -> body i s = UB \/ exists s', body i s = Ok s' /\ P s') -> (exists i, i ∈ l /\ forall s, P s -> body i s = UB) ->
  forall s, P s -> forl l body s = UB.
Proof.
  intros Hb. induction l as [|j l IH]; intros (i & Hi & Hu) s Hs; [apply elem_of_nil in Hi as []|]. cbn [forl].
  apply elem_of_cons in Hi as [-> |Hi]; [rewrite (Hu s Hs); reflexivity|]. destruct (Hb j s Hs) as [-> |(s' & -> & Hs')]; [reflexivity|]. cbn [bind].
  apply IH; [|exact Hs']. eauto.
Qed.
Lemma par_for_UB {St} (P : St -> Prop) lo hi (body : nat -> St -> res St) s i : lo <= i < hi ->
  (forall i s, P s -> body i s = UB \/ exists s', body i s = Ok s' /\ P s') -> (forall s, P s -> body i s = UB) -> P s -> only_UB (par_for lo hi body s).
Proof.
  intros Hi Hb Hu Hs.
  assert (forall l, l ≡ₚ range lo hi -> forl l body s = UB) as H.
  { intros l Hl. eapply forl_UB; [exact Hb| |exact Hs]. exists i. split; [|exact Hu]. rewrite Hl. apply elem_of_range. exact Hi. }
  split; [exists UB, (range lo hi); split; [reflexivity|rewrite H; reflexivity]|]. intros o (l & Hl & ->). apply H, Hl.
Qed.
Lemma get_none {A} (l : list A) i : length l <= i -> get l i = UB.
Proof. intros H. unfold get. rewrite lookup_ge_None_2 by exact H. reflexivity. Qed.
Lemma get_cases {A} (l : list A) i : get l i = UB \/ exists x, get l i = Ok x.
Proof. unfold get. destruct (l !! i); eauto. Qed.
Lemma set_cases {A} (l : list A) i x n : length l = n -> set l i x = UB \/ exists l', set l i x = Ok l' /\ length l' = n.
Proof. intros H. unfold set. destruct (decide _); [right; eexists; split; [reflexivity|rewrite insert_length; exact H]|left; reflexivity]. Qed.
Lemma set_none {A} (l : list A) i x : length l <= i -> set l i x = UB.
Proof. intros H. unfold set. rewrite decide_False by lia. reflexivity. Qed.

Section C86.
  Context {F : Type} {O : SOps F}.
  Implicit Types (M : srmat F) (c : @ctx F) (st : @pstate F) (r z x : list F).

  Lemma vcopy_UB len r z : length r < len \/ length z < len -> only_UB (vcopy len r z).
  Proof.
    intros H. unfold vcopy.
    assert (forall i s, length s = length z -> (let! a := get r i in set s i a) = UB \/ exists s', (let! a := get r i in set s i a) = Ok s' /\ length s' = length z) as Hb.
    { intros i s Hs. destruct (get_cases r i) as [-> |[y ->]]; cbn [bind]; [left; reflexivity|apply set_cases, Hs]. }
    destruct H as [H|H].
    - apply (par_for_UB (fun s => length s = length z) _ _ _ _ (length r)); [lia|exact Hb| |reflexivity]. intros s _. rewrite get_none by lia. reflexivity.
    - apply (par_for_UB (fun s => length s = length z) _ _ _ _ (length z)); [lia|exact Hb| |reflexivity]. intros s Hs.
      destruct (get_cases r (length z)) as [-> |[y ->]]; cbn [bind]; [reflexivity|apply set_none; lia].
  Qed.
  Lemma jacobi_UB M d r z : length r < nbrows M \/ length z < nbrows M -> only_UB (jacobi_apply M d r z).
  Proof.
    intros H. unfold jacobi_apply.
    set (body := fun i (z : list F) => let! di := get d i in let! ri := get r i in set z i (di * ri)%s).
    assert (forall i s, length s = length z -> body i s = UB \/ exists s', body i s = Ok s' /\ length s' = length z) as Hb.
    { intros i s Hs. unfold body. destruct (get_cases d i) as [-> |[y ->]]; cbn [bind]; [left; reflexivity|].
      destruct (get_cases r i) as [-> |[y' ->]]; cbn [bind]; [left; reflexivity|apply set_cases, Hs]. }
    destruct H as [H|H].
    - apply (par_for_UB (fun s => length s = length z) _ _ _ _ (length r)); [lia|exact Hb| |reflexivity]. intros s _. unfold body. rewrite (get_none r) by lia.
      destruct (get_cases d (length r)) as [-> |[y ->]]; reflexivity.
    - apply (par_for_UB (fun s => length s = length z) _ _ _ _ (length z)); [lia|exact Hb| |reflexivity]. intros s Hs. unfold body.
      destruct (get_cases d (length z)) as [-> |[y ->]]; cbn [bind]; [reflexivity|]. destruct (get_cases r (length z)) as [-> |[y' ->]]; cbn [bind]; [reflexivity|apply set_none; lia].
  Qed.

  (** ** C86 *)
  (** Compiled for debugging, a right-hand side of the wrong length is refused, by every preconditioner, and nothing has happened *)
  Theorem C86_refused_application nthr g dcpu dwall M c st r z p :
    c_bprec c = Some p -> length r <> obj_dim p M ->
    nok (apply_local_blasted true nthr g dcpu dwall M c st r z) (refused c st z).
  Proof.
    intros Ep Hr. unfold apply_local_blasted. rewrite Ep. rewrite (proj2 (Nat.eqb_neq (obj_dim p M) (length r))) by congruence. cbn [negb andb].
    apply nok_ret. repeat split; eauto.
  Qed.
  (** ... also when relaxing, but then a guess taken as zero has been set to zero, and the tolerances and the number of steps are set *)
  Theorem C86_refused_relaxation sabs slt nthr g dcpu dwall rt at_ dt it gz M c st r x p :
    c_bprec c = Some p -> length r <> obj_dim p M ->
    nok (relax_local_blasted sabs slt true nthr g dcpu dwall rt at_ dt it gz M c st r x)
      (fun '(a, its) => its = None /\
         refused c (PState (p_d st) (p_y st) (p_ilu st) (p_levels st) (p_csc st) {| rtol := rt; atol := at_; dtol := dt; ctol := false; maxits := Z.to_nat it |})
           (if gz : bool then replicate (length x) s0 else x) a).
  Proof.
    intros Ep Hr. unfold relax_local_blasted. rewrite Ep. cbv zeta. rewrite (proj2 (Nat.eqb_neq (obj_dim p M) (length r))) by congruence. cbn [negb andb].
    apply nok_ret. repeat split; eauto.
  Qed.
  Lemma attempt_UB {A} (m : nd A) (k : A + status -> nd (@after F)) : only_UB m ->
    (forall o, k (inr Undefined) o -> exists a, o = Ok a /\ a_status a = Undefined) -> (exists o, k (inr Undefined) o) -> undefined (nbind (attempt m) k).
  Proof.
    intros [[o Ho] H] Hk [o' Ho']. split.
    - exists o', (Ok (inr Undefined)). split; [|exact Ho']. exists UB. rewrite (H o Ho) in Ho. auto.
    - intros o1 (y & (y' & Hy & ->) & Hm). rewrite (H y' Hy) in Hm. apply Hk, Hm.
  Qed.
  (** Otherwise not: compiled without DEBUG, too short a right-hand side is read past its end; and the length of the output vector is never
      looked at, so that too short a one is written past its end, also when compiled with DEBUG *)
  Theorem C86_unchecked_refuted dbg nthr g dcpu dwall M c st r z p :
    (exists bs, p = PNone bs) \/ (p = PJacobi Scalar /\ p_d st <> None) -> c_bprec c = Some p ->
    dbg = false /\ length r < obj_dim p M \/ length r = obj_dim p M /\ length z < obj_dim p M ->
    undefined (apply_local_blasted dbg nthr g dcpu dwall M c st r z).
  Proof.
    intros Hp Ep Hlen. unfold apply_local_blasted. rewrite Ep.
    assert (dbg && negb (obj_dim p M =? length r)%nat = false) as -> by (destruct Hlen as [[-> _]|[-> _]]; [reflexivity|rewrite Nat.eqb_refl; apply andb_false_r]).
    apply attempt_UB.
    - assert (length r < obj_dim p M \/ length z < obj_dim p M) as Hl by tauto. destruct Hp as [[bs ->]|[-> Hd]]; cbn [obj_apply].
      + apply only_UB_bind_l. apply vcopy_UB. exact Hl.
      + destruct (p_d st) as [d|]; [|congruence]. cbn [member]. apply only_UB_bind_l. apply jacobi_UB. unfold obj_dim in Hl. cbn [pshape width] in Hl. lia.
    - intros o ->. eexists. split; reflexivity.
    - eexists. reflexivity.
  Qed.
End C86.

(** a matrix of two rows, vectors of length one and three *)
Example C86_case :
  let M := SR [0; 1; 2] [0; 1] [q 1; q 2] [0; 1] [1; 2] 2 2 2 in let p := PJacobi Scalar in
  let c := Ctx (Some p) None 1 "jacobi" JACOBI false 1 1 1 "" "" false None true (q 0) (q 0) (q 0) (q 0) None in
  let st := PState (Some [q 1; q 2]) None ilu_new [] None {| rtol := q 0; atol := q 0; dtol := q 0; ctol := false; maxits := 1 |} in
  c_bprec c = Some p /\ length [q 1; q 2; q 3] <> obj_dim p M /\ p_d st <> None /\ length [q 1] < obj_dim p M /\ length [q 1; q 2] = obj_dim p M.
Proof. cbn. repeat split; try discriminate; lia. Qed.

Print Assumptions C86_refused_application.
Print Assumptions C86_refused_relaxation.
Print Assumptions C86_unchecked_refuted.
