(** * SolversFacts: the vector operations and the residuals of the iterative solvers *)
From Verif Require Import Base Alg Nd Reduction TriSpec TriFacts SymSpec SolveSpec Solvers.
Open Scope nat_scope.

Lemma nok_all_ok {A} (m : nd A) Q a : nok m Q -> m (Ok a) -> Q a.
Proof. intros [_ H] Hm. exact (H _ Hm). Qed.
(** a postcondition may mention that the value is an outcome *)
Lemma nok_self {A} (m : nd A) Q : nok m Q -> nok m (fun a => Q a /\ m (Ok a)).
Proof.
  intros [H1 H2]. split; [exact H1|]. intros o Ho. specialize (H2 o Ho). destruct o as [a| | |]; simpl in *; try contradiction. auto.
Qed.

Lemma nok_get {A B} (l : list A) i x (k : A -> nd B) Q : l !! i = Some x -> nok (k x) Q -> nok (nbind (nlift (get l i)) k) Q.
Proof.
  intros E H. apply (nok_bind _ _ (fun a => a = x)); [|intros ? ->; exact H]. apply nok_lift. rewrite (proj2 (get_Some _ _ _) E). apply ok_ret. reflexivity.
Qed.
Lemma nok_set {A B} (l : list A) i x (k : list A -> nd B) Q : i < length l -> nok (k (<[i := x]> l)) Q -> nok (nbind (nlift (set l i x)) k) Q.
Proof.
  intros E H. apply (nok_bind _ _ (fun a => a = <[i := x]> l)); [|intros ? ->; exact H]. apply nok_lift. rewrite set_Ok by exact E. apply ok_ret. reflexivity.
Qed.

Section Facts.
  Context {F : Type} {O : SOps F} {R : CRing F}.
  Add Ring Fr : (@cring F O R).
  Variables (ssqrt : F -> F) (slt sle : F -> F -> bool) (N : nat).
  Open Scope s_scope.
  Notation mk f := (fmap (M:=list) (f : nat -> F) (seq 0 N)).

  Lemma mk_length (f : nat -> F) : length (mk f) = N.
  Proof. rewrite fmap_length, seq_length. reflexivity. Qed.
  Lemma mk_at (f : nat -> F) i : (i < N)%nat -> vat (mk f) i = f i.
  Proof. apply vat_fmap_seq. Qed.
  Lemma mk_eq (v : list F) (f : nat -> F) : length v = N -> (forall i, (i < N)%nat -> vat v i = f i) -> v = mk f.
  Proof. intros L H. apply vec_eq; [rewrite mk_length; exact L|]. intros i Hi. rewrite L in Hi. rewrite mk_at by exact Hi. auto. Qed.

  (** ** vector operations *)
  Lemma axpby_ok p z c x : length z = N -> length x = N -> nok (axpby N p z c x) (fun z' => z' = mk (fun i => p * vat z i + c * vat x i)).
  Proof.
    intros Hz Hx. unfold axpby. apply (nok_par_for_map _ _ _ _ (fun i => p * vat z i + c * vat x i)); [lia| |].
    - intros i s' Hi Hl E. rewrite (vat_get s' i) by lia. cbn [bind]. rewrite (vat_get x i) by lia. cbn [bind]. rewrite set_Ok by lia.
      unfold vat at 1. rewrite E. reflexivity.
    - intros z' Hl Hv _. apply mk_eq; [lia|]. intros i Hi. apply vat_eq, Hv. lia.
  Qed.
  Lemma axpbypcz_ok p z c x d y : length z = N -> length x = N -> length y = N ->
    nok (axpbypcz N p z c x d y) (fun z' => z' = mk (fun i => p * vat z i + c * vat x i + d * vat y i)).
  Proof.
    intros Hz Hx Hy. unfold axpbypcz. apply (nok_par_for_map _ _ _ _ (fun i => p * vat z i + c * vat x i + d * vat y i)); [lia| |].
    - intros i s' Hi Hl E. rewrite (vat_get s' i) by lia. cbn [bind]. rewrite (vat_get x i) by lia. cbn [bind].
      rewrite (vat_get y i) by lia. cbn [bind]. rewrite set_Ok by lia. unfold vat at 1. rewrite E. reflexivity.
    - intros z' Hl Hv _. apply mk_eq; [lia|]. intros i Hi. apply vat_eq, Hv. lia.
  Qed.
  Lemma vecassign_ok (a b : list F) : length a = N -> length b = N -> nok (vecassign N a b) (fun b' => b' = a).
  Proof.
    intros Ha Hb. unfold vecassign. apply (nok_par_for_map _ _ _ _ (fun i => vat a i)); [lia| |].
    - intros i s' Hi Hl E. rewrite (vat_get a i) by lia. cbn [bind]. rewrite set_Ok by lia. reflexivity.
    - intros z' Hl Hv _. apply vec_eq; [lia|]. intros i Hi. apply vat_eq, Hv. lia.
  Qed.
  Lemma lsum_range k (f : nat -> F) : lsum f (range 0 k) = bsum k f.
  Proof.
    induction k as [|k IH]; [reflexivity|]. replace (S k) with (k + 1)%nat by lia.
    rewrite range_snoc by lia. rewrite lsum_app, IH. replace (k + 1)%nat with (S k) by lia. simpl. ring.
  Qed.
  Lemma lsum_some (g : nat -> F) l : lsum (fun o => match o with None => s0 | Some i => g i end) (Some <$> l) = lsum g l.
  Proof. induction l as [|i l IH]; [reflexivity|]. cbn [fmap list_fmap]. simpl. f_equal. exact IH. Qed.
  Lemma vdot_ok (a b : list F) : length a = N -> length b = N -> nok (vdot N a b) (fun s => s = dot N a b).
  Proof.
    intros Ha Hb. unfold vdot. set (h := fun o : option nat => match o with None => s0 | Some i => vat a i * vat b i end).
    apply (nok_reduce (fun l s => s = lsum h l) sadd).
    - intros l l' s Hp ->. apply lsum_perm, Hp.
    - intros l1 l2 u v -> ->. rewrite lsum_app. reflexivity.
    - reflexivity.
    - simpl. ring.
    - intros l i s Hi ->. rewrite (vat_get a i) by lia. cbn [bind]. rewrite (vat_get b i) by lia. cbn [bind]. apply ok_ret.
      rewrite lsum_app. simpl. ring.
    - intros s ->. change (h None + lsum h (Some <$> range 0 N) = dot N a b). unfold h at 2. rewrite lsum_some, lsum_range. unfold dot. simpl. ring.
  Qed.
  Lemma rhs_loop_ok (rhs r rhat : list F) : length rhs = N -> length r = N -> length rhat = N ->
    nok (rhs_loop N rhs r rhat) (fun '(bb, rh) => bb = dot N rhs rhs /\ rh = r).
  Proof.
    intros Hb Hr Hh. unfold rhs_loop. set (h := fun o : option nat => match o with None => s0 | Some i => vat rhs i * vat rhs i end).
    apply (nok_reduce_shared (fun l s => s = lsum h l) sadd) with (J := fun dn x' => length x' = N /\ forall i, i ∈ dn -> x' !! i = Some (vat r i)).
    - intros l l' s Hp ->. apply lsum_perm, Hp.
    - intros l1 l2 u v -> ->. rewrite lsum_app. reflexivity.
    - reflexivity.
    - simpl. ring.
    - split; [exact Hh|]. intros i Hi. apply elem_of_nil in Hi as [].
    - intros dn l i s x' Hdn Hi Hni -> (Hl & Hk). rewrite (vat_get rhs i) by lia. cbn [bind]. rewrite (vat_get r i) by lia. cbn [bind].
      rewrite set_Ok by lia. cbn [bind]. apply ok_ret. split; [rewrite lsum_app; simpl; ring|]. split; [rewrite insert_length; exact Hl|].
      intros j Hj. destruct (decide (i = j)) as [<-|Hne]; [rewrite list_lookup_insert by lia; reflexivity|].
      rewrite list_lookup_insert_ne by exact Hne. apply Hk. apply elem_of_app in Hj as [Hj|Hj]; [exact Hj|].
      apply elem_of_list_singleton in Hj. congruence.
    - intros l s x' Hl -> (H1 & H2). split.
      + change (h None + lsum h (Some <$> range 0 N) = dot N rhs rhs). unfold h at 2. rewrite lsum_some, lsum_range. unfold dot. simpl. ring.
      + apply vec_eq; [lia|]. intros i Hi. apply vat_eq, H2. rewrite Hl. apply elem_of_range. lia.
  Qed.

  (** ** residuals *)
  Variable A : nat -> nat -> F.
  Lemma times_length x : length (times N A x) = N.
  Proof. apply mk_length. Qed.
  Lemma resid_length b x : length (resid N A b x) = N.
  Proof. apply mk_length. Qed.
  Lemma times_at x i : (i < N)%nat -> vat (times N A x) i = bsum N (fun j => A i j * vat x j).
  Proof. apply mk_at. Qed.
  Lemma resid_at b x i : (i < N)%nat -> vat (resid N A b x) i = vat b i - vat (times N A x) i.
  Proof. intros Hi. unfold resid. rewrite (mk_at _ i Hi), times_at by exact Hi. reflexivity. Qed.
  Lemma times_lin p x c y i : (i < N)%nat ->
    vat (times N A (mk (fun j => p * vat x j + c * vat y j))) i = p * vat (times N A x) i + c * vat (times N A y) i.
  Proof.
    intros Hi. rewrite !times_at by exact Hi. rewrite <- !bsum_mul_l, <- bsum_add. apply bsum_ext. intros j Hj.
    rewrite mk_at by exact Hj. ring.
  Qed.
  Lemma times_lin3 p x c y d z i : (i < N)%nat ->
    vat (times N A (mk (fun j => p * vat x j + c * vat y j + d * vat z j))) i
    = p * vat (times N A x) i + c * vat (times N A y) i + d * vat (times N A z) i.
  Proof.
    intros Hi. rewrite !times_at by exact Hi. rewrite <- !bsum_mul_l, <- !bsum_add. apply bsum_ext. intros j Hj.
    rewrite mk_at by exact Hj. ring.
  Qed.

  Variable Aapply : list F -> list F -> nd (list F).
  Variable Agemv3 : F -> list F -> F -> list F -> list F -> nd (list F).
  Variable prec : list F -> list F -> nd (list F).
  Hypothesis HA : forall x y, length x = N -> length y = N -> nok (Aapply x y) (fun y' => length y' = N /\ is_prod N A x y').
  Hypothesis HG : forall a x b y z, length x = N -> length y = N -> length z = N ->
    nok (Agemv3 a x b y z) (fun z' => length z' = N /\ forall i, (i < N)%nat -> vat z' i = a * bsum N (fun j => A i j * vat x j) + b * vat y i).
  Hypothesis HP : forall x y, length x = N -> length y = N -> nok (prec x y) (fun y' => length y' = N).
  Definition answers (s d : list F) : Prop := exists old, length old = N /\ prec s old (Ok d).

  Lemma Aapply_ok x y : length x = N -> length y = N -> nok (Aapply x y) (fun y' => y' = times N A x).
  Proof.
    intros Hx Hy. eapply nok_mono; [apply HA; assumption|]. intros y' [L H]. apply mk_eq; [exact L|]. intros i Hi. symmetry. apply H, Hi.
  Qed.
  Lemma Agemv3_ok x b s : length x = N -> length b = N -> length s = N -> nok (Agemv3 (sopp s1) x s1 b s) (fun s' => s' = resid N A b x).
  Proof.
    intros Hx Hb Hs. eapply nok_mono; [apply HG; assumption|]. intros y' [L H]. apply mk_eq; [exact L|]. intros i Hi. rewrite H by exact Hi. ring.
  Qed.
  Lemma prec_ok x y : length x = N -> length y = N -> nok (prec x y) (fun d => length d = N /\ answers x d).
  Proof.
    intros Hx Hy. eapply nok_mono; [apply nok_self, HP; assumption|]. intros d [L H]. split; [exact L|]. exists y. auto.
  Qed.

  Section Rich.
    Variables (maxiter : nat) (tol : F).
    Lemma vadd_axpby x d : length x = N -> length d = N -> mk (fun i => s1 * vat x i + s1 * vat d i) = vadd N x d.
    Proof. intros _ _. symmetry. apply mk_eq; [apply mk_length|]. intros i Hi. unfold vadd. rewrite (mk_at _ i Hi). ring. Qed.
    Notation its := (iterates N A answers).
    Lemma iterates_length b x0 k x : length x0 = N -> its b x0 k x -> length x = N.
    Proof. intros L H. destruct H; [exact L|apply mk_length]. Qed.
    Lemma richardson_loop_ok b x0 bn k : forall step rn s ddu du,
      length b = N -> length x0 = N -> length s = N -> length ddu = N -> its b x0 step du ->
      (step = 0%nat \/ exists x d, its b x0 (step - 1) x /\ answers (resid N A b x) d /\ du = vadd N x d /\
         rn = ssqrt (sqnorm N (resid N A b x)) /\ slt (rn / bn) tol = false) ->
      nok (richardson_loop ssqrt slt N Agemv3 prec tol b bn k step rn s ddu du)
        (fun '(x', m, rn') => (step <= m <= step + k)%nat /\ its b x0 m x' /\
           ((m < step + k)%nat -> rn' = ssqrt (sqnorm N (resid N A b x')) /\ slt (rn' / bn) tol = true) /\
           ((m = step + k)%nat -> (m = 0%nat /\ rn' = rn) \/ exists x d, its b x0 (m - 1) x /\ answers (resid N A b x) d /\ x' = vadd N x d /\
              rn' = ssqrt (sqnorm N (resid N A b x)) /\ slt (rn' / bn) tol = false)).
    Proof.
      induction k as [|k IH]; intros step rn s ddu du Hb Hx0 Hs Hdd Hit Hprev; cbn [richardson_loop].
      - apply nok_ret. split; [lia|]. split; [exact Hit|]. split; [lia|]. intros _. destruct Hprev as [->|Hp]; [left; auto|right; exact Hp].
      - pose proof (iterates_length _ _ _ _ Hx0 Hit) as Hdu.
        eapply nok_bind; [apply Agemv3_ok; assumption|]. intros ? ->.
        eapply nok_bind; [apply vdot_ok; apply resid_length|]. intros ? ->. cbv zeta.
        change (dot N (resid N A b du) (resid N A b du)) with (sqnorm N (resid N A b du)).
        destruct (slt (ssqrt (sqnorm N (resid N A b du)) / bn) tol) eqn:Et.
        + apply nok_ret. split; [lia|]. split; [exact Hit|]. split; [auto|lia].
        + eapply nok_bind; [apply prec_ok; [apply resid_length|exact Hdd]|]. intros d [Ld Hd].
          eapply nok_bind; [apply axpby_ok; assumption|]. intros ? ->. rewrite vadd_axpby by assumption.
          eapply nok_mono; [apply IH; try assumption|].
          * apply resid_length.
          * replace (step + 1)%nat with (S step) by lia. constructor; assumption.
          * right. replace (step + 1 - 1)%nat with step by lia. exists du, d. auto.
          * intros [[x' m] rn']. cbn beta iota. intros (H1 & H2 & H3 & H4). split; [lia|]. split; [exact H2|]. split; [intros; apply H3; lia|].
            intros Hm. destruct H4 as [[? _]|H4]; [lia|lia|]. right. exact H4.
    Qed.
  End Rich.

  Section Bicgstab.
    Variable tol : F.
    Definition bs_good (b : list F) (s : bstate) : Prop :=
      length (bs_p s) = N /\ length (bs_v s) = N /\ length (bs_y s) = N /\ length (bs_z s) = N /\ length (bs_t s) = N /\
      length (bs_x s) = N /\ bs_r s = resid N A b (bs_x s).
    Lemma bicgstab_step_ok b rhat s : length b = N -> length rhat = N -> bs_good b s ->
      nok (bicgstab_step N Aapply prec rhat s) (fun '(s', _) => bs_good b s').
    Proof.
      intros Hb Hrh. destruct s as [om rho0 al r p v y z t x]. unfold bs_good. cbn. intros (Lp & Lv & Ly & Lz & Lt & Lx & ->).
      eapply nok_bind; [apply vdot_ok; [exact Hrh|apply resid_length]|]. intros rho _.
      eapply nok_bind; [apply axpbypcz_ok; [exact Lp|apply resid_length|exact Lv]|]. intros p' ->.
      eapply nok_bind; [apply prec_ok; [apply mk_length|exact Ly]|]. intros y' [Ly' _].
      eapply nok_bind; [apply Aapply_ok; assumption|]. intros v' ->.
      eapply nok_bind; [apply vdot_ok; [exact Hrh|apply times_length]|]. intros rv _.
      eapply nok_bind; [apply axpby_ok; [apply resid_length|apply times_length]|]. intros r' ->.
      eapply nok_bind; [apply prec_ok; [apply mk_length|exact Lz]|]. intros z' [Lz' _].
      eapply nok_bind; [apply Aapply_ok; assumption|]. intros t' ->.
      eapply nok_bind; [apply vdot_ok; [apply times_length|apply mk_length]|]. intros tr _.
      eapply nok_bind; [apply vdot_ok; apply times_length|]. intros t2 _.
      eapply nok_bind; [apply axpbypcz_ok; assumption|]. intros x' ->.
      eapply nok_bind; [apply axpby_ok; [apply mk_length|apply times_length]|]. intros r2 ->.
      apply nok_ret. cbn. rewrite !mk_length, !times_length. repeat (split; [assumption || reflexivity|]).
      apply vec_eq; [rewrite mk_length, resid_length; reflexivity|]. intros i Hi. rewrite mk_length in Hi.
      rewrite resid_at by exact Hi. rewrite times_lin3 by exact Hi. rewrite !(mk_at _ i Hi). rewrite resid_at by exact Hi. ring.
    Qed.
    Lemma bicgstab_loop_ok b rhat bn k : forall step rn s, length b = N -> length rhat = N -> bs_good b s ->
      (step = 0%nat \/ rn = ssqrt (sqnorm N (resid N A b (bs_x s))) /\ slt (rn / bn) tol = false) ->
      nok (bicgstab_loop ssqrt slt N Aapply prec tol rhat bn k step rn s)
        (fun '(x', m, rn') => (step <= m <= step + k)%nat /\ length x' = N /\ ((m < step + k)%nat -> slt (rn' / bn) tol = true) /\
          ((0 < step + k)%nat -> rn' = ssqrt (sqnorm N (resid N A b x')) /\ (m = (step + k)%nat -> slt (rn' / bn) tol = false)) /\
          (k = 0%nat -> x' = bs_x s /\ rn' = rn)).
    Proof.
      induction k as [|k IH]; intros step rn s Hb Hrh Hg Hprev; cbn [bicgstab_loop].
      - apply nok_ret. split; [lia|]. split; [apply Hg|]. split; [lia|]. split; [|auto].
        intros Hs. destruct Hprev as [->|[? ?]]; [lia|auto].
      - eapply nok_bind; [apply (bicgstab_step_ok b); assumption|]. intros [s' rho] Hg'.
        assert (bs_r s' = resid N A b (bs_x s')) as Er by apply Hg'. rewrite Er.
        eapply nok_bind; [apply vdot_ok; apply resid_length|]. intros ? ->. cbv zeta.
        change (dot N (resid N A b (bs_x s')) (resid N A b (bs_x s'))) with (sqnorm N (resid N A b (bs_x s'))).
        destruct (slt (ssqrt (sqnorm N (resid N A b (bs_x s'))) / bn) tol) eqn:Et.
        + apply nok_ret. split; [lia|]. split; [apply Hg'|]. split; [auto|]. split; [|lia]. intros _. split; [reflexivity|lia].
        + eapply nok_mono; [apply IH; [exact Hb|exact Hrh| |]|].
          * destruct Hg' as (? & ? & ? & ? & ? & ? & ?). repeat (split; [assumption|]). reflexivity.
          * right. auto.
          * intros [[x' m] rn']. cbn beta iota. intros (H1 & H2 & H3 & H4 & _). split; [lia|]. split; [exact H2|]. split; [intros; apply H3; lia|].
            split; [|lia]. intros _. destruct H4 as [H4 H5]; [lia|]. split; [exact H4|]. intros; apply H5; lia.
    Qed.
  End Bicgstab.

  Section Gcr.
    Variables (maxiter nrestart : nat) (tol : F).
    (** directions up to [k]: q = A p *)
    Definition gs_good (b : list F) (s : @gstate F) : Prop :=
      length (gx s) = N /\ length (gz s) = N /\ length (gbeta s) = (nrestart + 1)%nat /\ length (gp s) = nrestart /\ length (gq s) = nrestart /\
      Forall (fun v => length v = N) (gp s) /\ Forall (fun v => length v = N) (gq s) /\ length (gres s) = N.
    Definition gs_inv (b : list F) (k : nat) (s : @gstate F) : Prop :=
      gs_good b s /\ gres s = resid N A b (gx s) /\
      forall l p q, (l < k)%nat -> gp s !! l = Some p -> gq s !! l = Some q -> q = times N A p.
    Lemma gp_at b (s : @gstate F) l : gs_good b s -> (l < nrestart)%nat -> exists p, gp s !! l = Some p /\ length p = N.
    Proof.
      intros (_ & _ & _ & Lp & _ & Hp & _) Hl. destruct (lookup_lt_is_Some_2 (gp s) l) as [p E]; [lia|]. exists p. split; [exact E|].
      exact (proj1 (Forall_lookup _ _) Hp l p E).
    Qed.
    Lemma gq_at b (s : @gstate F) l : gs_good b s -> (l < nrestart)%nat -> exists p, gq s !! l = Some p /\ length p = N.
    Proof.
      intros (_ & _ & _ & _ & Lp & _ & Hp & _) Hl. destruct (lookup_lt_is_Some_2 (gq s) l) as [p E]; [lia|]. exists p. split; [exact E|].
      exact (proj1 (Forall_lookup _ _) Hp l p E).
    Qed.
    Lemma gcr_orth_ok bl (pl ql pn qn : list F) : length pl = N -> length ql = N -> length pn = N -> length qn = N ->
      nok (gcr_orth N bl pl ql pn qn) (fun '(p', q') => p' = mk (fun i => vat pn i + bl * vat pl i) /\ q' = mk (fun i => vat qn i + bl * vat ql i)).
    Proof.
      intros Hpl Hql Hpn Hqn. unfold gcr_orth.
      apply (nok_par_for 0 N _ _ (fun dn '(p', q') => length p' = N /\ length q' = N /\
        (forall i, (i < N)%nat -> vat p' i = if decide (i ∈ dn) then vat pn i + bl * vat pl i else vat pn i) /\
        (forall i, (i < N)%nat -> vat q' i = if decide (i ∈ dn) then vat qn i + bl * vat ql i else vat qn i))).
      - split; [exact Hpn|]. split; [exact Hqn|]. split; intros i Hi; (rewrite decide_False by apply not_elem_of_nil); reflexivity.
      - intros dn i [p' q'] Hdn Hi Hni (L1 & L2 & H1 & H2).
        rewrite (vat_get p' i) by lia. cbn [bind]. rewrite (vat_get pl i) by lia. cbn [bind]. rewrite set_Ok by lia. cbn [bind].
        rewrite (vat_get q' i) by lia. cbn [bind]. rewrite (vat_get ql i) by lia. cbn [bind]. rewrite set_Ok by lia. cbn [bind].
        apply ok_ret. split; [rewrite insert_length; exact L1|]. split; [rewrite insert_length; exact L2|].
        rewrite (H1 i) by lia. rewrite (H2 i) by lia. rewrite !decide_False by exact Hni.
        split; intros j Hj; (destruct (decide (i = j)) as [<-|Hne];
          [rewrite decide_True by (apply elem_of_app; right; left); apply vat_eq; rewrite list_lookup_insert by lia; reflexivity
          |unfold vat at 1; rewrite list_lookup_insert_ne by exact Hne; fold (vat p' j); fold (vat q' j)]).
        + change (default s0 (p' !! j)) with (vat p' j). rewrite H1 by exact Hj. destruct (decide (j ∈ dn)) as [Hin|Hin].
          * rewrite decide_True by (apply elem_of_app; auto). reflexivity.
          * rewrite decide_False; [reflexivity|]. rewrite elem_of_app, elem_of_list_singleton. intros [?|?]; [auto|congruence].
        + change (default s0 (q' !! j)) with (vat q' j). rewrite H2 by exact Hj. destruct (decide (j ∈ dn)) as [Hin|Hin].
          * rewrite decide_True by (apply elem_of_app; auto). reflexivity.
          * rewrite decide_False; [reflexivity|]. rewrite elem_of_app, elem_of_list_singleton. intros [?|?]; [auto|congruence].
      - intros l [p' q'] Hl (L1 & L2 & H1 & H2). split; (apply mk_eq; [assumption|]); intros i Hi.
        + rewrite H1 by exact Hi. rewrite decide_True; [reflexivity|]. rewrite Hl. apply elem_of_range. lia.
        + rewrite H2 by exact Hi. rewrite decide_True; [reflexivity|]. rewrite Hl. apply elem_of_range. lia.
    Qed.

    (** the state after a new direction, in terms of sums *)
    Definition bcoef (s : @gstate F) (qn : list F) (l : nat) : F :=
      sopp (dot N qn (default [] (gq s !! l))) / dot N (default [] (gq s !! l)) (default [] (gq s !! l)).
    Definition newdir (s : @gstate F) (qn v : list F) (ps : list (list F)) (k : nat) : list F :=
      mk (fun i => vat v i + bsum k (fun l => bcoef s qn l * vat (default [] (ps !! l)) i)).
    Definition next_state (k : nat) (s : @gstate F) (z beta : list F) : @gstate F :=
      GS (gx s) (gres s) z beta (<[(k + 1)%nat := newdir s (times N A z) z (gp s) (k + 1)]> (gp s))
         (<[(k + 1)%nat := newdir s (times N A z) (times N A z) (gq s) (k + 1)]> (gq s)).
    Lemma gcr_next_ok b k (s : @gstate F) : gs_good b s -> (k + 1 < nrestart)%nat ->
      nok (gcr_next N Aapply prec k s) (fun s' => exists z beta, length z = N /\ answers (gres s) z /\
        length beta = (nrestart + 1)%nat /\ s' = next_state k s z beta).
    Proof.
      intros Hg Hk. destruct (gq_at b s (k + 1) Hg Hk) as (qn & Eqn & Lqn). destruct (gp_at b s (k + 1) Hg Hk) as (pn & Epn & Lpn).
      pose proof (fun l => gp_at b s l Hg) as Hgp. pose proof (fun l => gq_at b s l Hg) as Hgq.
      destruct Hg as (Lx & Lz & Lb & Lp & Lq & Hp & Hq & Lr). destruct s as [x r z0 beta0 p q]. unfold next_state, bcoef, newdir in *. cbn in *.
      eapply nok_bind; [apply prec_ok; assumption|]. intros z [Lz' Hz].
      eapply nok_get; [exact Eqn|]. cbv beta.
      eapply nok_bind; [apply Aapply_ok; assumption|]. intros ? ->.
      eapply nok_get; [exact Epn|]. cbv beta.
      eapply nok_bind; [apply vecassign_ok; assumption|]. intros ? ->.
      set (w := times N A z).
      set (bc := fun l => sopp (dot N w (default [] (q !! l))) / dot N (default [] (q !! l)) (default [] (q !! l))).
      eapply nok_bind with (P := fun beta => length beta = (nrestart + 1)%nat /\ forall l, (l < k + 1)%nat -> beta !! l = Some (bc l)).
      { apply (nok_nfor _ _ _ _ (fun j beta => length beta = (nrestart + 1)%nat /\ forall l, (l < j)%nat -> beta !! l = Some (bc l))); [lia| | |auto].
        - split; [exact Lb|lia].
        - intros j be Hj [Lbe Hbe]. destruct (Hgq j ltac:(lia)) as (qj & Eqj & Lqj).
          eapply nok_get; [exact Eqj|]. cbv beta.
          eapply nok_bind; [apply vdot_ok; [apply times_length|exact Lqj]|]. intros ? ->.
          eapply nok_bind; [apply vdot_ok; exact Lqj|]. intros ? ->.
          apply nok_lift. rewrite set_Ok by lia. apply ok_ret. split; [rewrite insert_length; exact Lbe|].
          intros l Hl. destruct (decide (j = l)) as [<-|Hne].
          + rewrite list_lookup_insert by lia. unfold bc. rewrite Eqj. reflexivity.
          + rewrite list_lookup_insert_ne by exact Hne. apply Hbe. lia. }
      intros beta [Lbe Hbe].
      eapply nok_bind with (P := fun '(pn', qn') => pn' = mk (fun i => vat z i + bsum (k + 1) (fun l => bc l * vat (default [] (p !! l)) i)) /\
        qn' = mk (fun i => vat w i + bsum (k + 1) (fun l => bc l * vat (default [] (q !! l)) i))).
      { apply (nok_nfor _ _ _ _ (fun j '(pn', qn') => pn' = mk (fun i => vat z i + bsum j (fun l => bc l * vat (default [] (p !! l)) i)) /\
          qn' = mk (fun i => vat w i + bsum j (fun l => bc l * vat (default [] (q !! l)) i)))); [lia| | |].
        - split; (apply mk_eq; [assumption || apply times_length|]); intros i Hi; simpl; ring.
        - intros j [pn' qn'] Hj [-> ->]. destruct (Hgq j ltac:(lia)) as (qj & Eqj & Lqj). destruct (Hgp j ltac:(lia)) as (pj & Epj & Lpj).
          eapply nok_get; [exact (Hbe j ltac:(lia))|]. cbv beta.
          eapply nok_get; [exact Epj|]. cbv beta.
          eapply nok_get; [exact Eqj|]. cbv beta.
          eapply nok_mono; [apply gcr_orth_ok; try assumption; apply mk_length|].
          intros [p2 q2] [-> ->]. replace (j + 1)%nat with (S j) by lia.
          split; (apply mk_eq; [apply mk_length|]); intros i Hi; rewrite !(mk_at _ i Hi); cbn [bsum]; rewrite ?Epj, ?Eqj; simpl; ring.
        - intros [p2 q2] H. exact H. }
      intros [p2 q2] [-> ->].
      apply nok_set; [lia|]. cbv beta.
      apply nok_set; [lia|]. cbv beta.
      apply nok_ret. exists z, beta. auto.
    Qed.
    Definition acoef (k : nat) (s : @gstate F) : F :=
      dot N (gres s) (default [] (gq s !! k)) / dot N (default [] (gq s !! k)) (default [] (gq s !! k)).
    Definition update_state (k : nat) (s : @gstate F) : @gstate F :=
      GS (mk (fun i => s1 * vat (gx s) i + acoef k s * vat (default [] (gp s !! k)) i))
         (mk (fun i => s1 * vat (gres s) i + sopp (acoef k s) * vat (default [] (gq s !! k)) i)) (gz s) (gbeta s) (gp s) (gq s).
    Lemma gcr_update_ok b k (s : @gstate F) : gs_good b s -> (k < nrestart)%nat -> nok (gcr_update N k s) (fun s' => s' = update_state k s).
    Proof.
      intros Hg Hk. destruct (gq_at b s k Hg Hk) as (qk & Eq & Lqk). destruct (gp_at b s k Hg Hk) as (pk & Ep & Lpk).
      destruct Hg as (Lx & _ & _ & _ & _ & _ & _ & Lr). unfold update_state, acoef. rewrite Eq, Ep. destruct s as [x r z beta p q]. cbn in *.
      eapply nok_get; [exact Eq|]. cbv beta.
      eapply nok_bind; [apply vdot_ok; assumption|]. intros ? ->.
      eapply nok_bind; [apply vdot_ok; assumption|]. intros ? ->.
      eapply nok_get; [exact Ep|]. cbv beta.
      eapply nok_bind; [apply axpby_ok; assumption|]. intros ? ->.
      eapply nok_bind; [apply axpby_ok; assumption|]. intros ? ->.
      apply nok_ret. reflexivity.
    Qed.
    Definition start_state (b p0 : list F) (s : @gstate F) : @gstate F :=
      GS (gx s) (resid N A b (gx s)) (gz s) (gbeta s) (<[0%nat := p0]> (gp s)) (<[0%nat := times N A p0]> (gq s)).
    Lemma gcr_start_ok b (s : @gstate F) : length b = N -> gs_good b s -> (0 < nrestart)%nat ->
      nok (gcr_start Aapply Agemv3 prec b s) (fun s' => exists p0, length p0 = N /\ answers (resid N A b (gx s)) p0 /\ s' = start_state b p0 s).
    Proof.
      intros Hb Hg Hk. destruct (gq_at b s 0 Hg Hk) as (qk & Eq & Lqk). destruct (gp_at b s 0 Hg Hk) as (pk & Ep & Lpk).
      destruct Hg as (Lx & _ & _ & Lp & Lq & _ & _ & Lr). unfold start_state. destruct s as [x r z beta p q]. cbn in *.
      eapply nok_bind; [apply Agemv3_ok; assumption|]. intros ? ->.
      eapply nok_get; [exact Ep|]. cbv beta.
      eapply nok_bind; [apply prec_ok; [apply resid_length|exact Lpk]|]. intros p0 [Lp0 Hp0].
      apply nok_set; [lia|]. cbv beta.
      eapply nok_get; [exact Eq|]. cbv beta.
      eapply nok_bind; [apply Aapply_ok; assumption|]. intros ? ->.
      apply nok_set; [lia|]. cbv beta.
      apply nok_ret. eauto.
    Qed.
    Lemma update_inv b k (s : @gstate F) : gs_inv b (k + 1) s -> (k < nrestart)%nat -> gs_inv b (k + 1) (update_state k s).
    Proof.
      intros (Hg & Hr & Hd) Hk. destruct (gq_at b s k Hg Hk) as (qk & Eq & Lqk). destruct (gp_at b s k Hg Hk) as (pk & Ep & Lpk).
      pose proof (Hd k pk qk ltac:(lia) Ep Eq) as ->. split; [|split; [|exact Hd]].
      - destruct Hg as (Lx & Lz & Lb & Lp & Lq & Hp & Hq & Lr). unfold gs_good, update_state. cbn. rewrite !mk_length. auto 10.
      - unfold update_state. cbn. rewrite Eq, Ep. cbn. rewrite Hr. symmetry. apply mk_eq; [apply resid_length|]. intros i Hi.
        rewrite !resid_at by exact Hi. rewrite times_lin by exact Hi. ring.
    Qed.
    Lemma newdir_times s qn v k : (forall l, (l < k)%nat -> default [] (gq s !! l) = times N A (default [] (gp s !! l))) ->
      times N A (newdir s qn v (gp s) k) = newdir s qn (times N A v) (gq s) k.
    Proof.
      intros H. unfold newdir. apply mk_eq; [apply times_length|]. intros i Hi. rewrite times_at by exact Hi.
      transitivity (bsum N (fun j => A i j * vat v j) + bsum N (fun j => bsum k (fun l => bcoef s qn l * (A i j * vat (default [] (gp s !! l)) j)))).
      - rewrite <- bsum_add. apply bsum_ext. intros j Hj. rewrite (mk_at _ j Hj).
        transitivity (A i j * vat v j + A i j * bsum k (fun l => bcoef s qn l * vat (default [] (gp s !! l)) j)); [ring|]. f_equal.
        rewrite <- bsum_mul_l. apply bsum_ext. intros l _. ring.
      - rewrite times_at by exact Hi. f_equal. rewrite bsum_swap. apply bsum_ext. intros l Hl. rewrite bsum_mul_l. f_equal.
        rewrite H by exact Hl. rewrite times_at by exact Hi. reflexivity.
    Qed.
    Lemma next_inv b k s z beta : gs_inv b (k + 1) s -> (k + 1 < nrestart)%nat -> length z = N -> length beta = (nrestart + 1)%nat ->
      gs_inv b (k + 1 + 1) (next_state k s z beta).
    Proof.
      intros (Hg & Hr & Hd) Hk Lz Lbe. pose proof (fun l => gp_at b s l Hg) as Hgp. pose proof (fun l => gq_at b s l Hg) as Hgq.
      split; [|split; [exact Hr|]].
      - destruct Hg as (Lx & Lz0 & Lb & Lp & Lq & Hp & Hq & Lr). unfold gs_good, next_state. cbn. rewrite !insert_length.
        repeat (split; [assumption|]). split; [|split; [|exact Lr]]; apply Forall_insert; auto; apply mk_length.
      - unfold next_state. cbn. intros l p' q' Hl Ep Eq. destruct (decide ((k + 1)%nat = l)) as [<-|Hne].
        + destruct Hg as (_ & _ & _ & Lp & Lq & _). rewrite list_lookup_insert in Ep, Eq by lia. injection Ep as <-. injection Eq as <-.
          rewrite newdir_times; [reflexivity|]. intros l Hl'. destruct (Hgp l ltac:(lia)) as (pl & E1 & _). destruct (Hgq l ltac:(lia)) as (ql & E2 & _).
          rewrite E1, E2. cbn. apply (Hd l); [lia|exact E1|exact E2].
        + rewrite list_lookup_insert_ne in Ep, Eq by exact Hne. apply (Hd l); [lia|exact Ep|exact Eq].
    Qed.
    Lemma start_inv b s p0 : gs_good b s -> (0 < nrestart)%nat -> length p0 = N -> gs_inv b (0 + 1) (start_state b p0 s).
    Proof.
      intros (Lx & Lz0 & Lb & Lp & Lq & Hp & Hq & Lr) Hn L0. unfold start_state. split; [|split; [reflexivity|]].
      - unfold gs_good. cbn. rewrite !insert_length. repeat (split; [assumption|]). split; [|split; [|apply resid_length]]; apply Forall_insert; auto; apply times_length.
      - cbn. intros l p' q' Hl Ep Eq. assert (l = 0%nat) as -> by lia. rewrite list_lookup_insert in Ep, Eq by lia. congruence.
    Qed.

    (** what holds before ([Pre]) and after ([Post]) the update of pass [k] in a cycle which started from [xc] *)
    Variable (b : list F).
    Hypothesis Hb : length b = N.
    Variables (bn : F) (C : nat -> @gstate F -> Prop) (Pre Post : list F -> nat -> @gstate F -> Prop).
    Hypothesis HC : forall step s, C step s -> gs_good b s.
    Hypothesis Hpre : forall xc k s, Pre xc k s -> gs_inv b (k + 1) s.
    Hypothesis Hstart : forall step s p0, C step s -> length p0 = N -> answers (resid N A b (gx s)) p0 -> Pre (gx s) 0 (start_state b p0 s).
    Hypothesis Hup : forall xc k s, (k < nrestart)%nat -> Pre xc k s -> Post xc k (update_state k s).
    Hypothesis Hnext : forall xc k s z beta, (k + 1 < nrestart)%nat -> Post xc k s -> gs_inv b (k + 1) s ->
      slt (ssqrt (sqnorm N (resid N A b (gx s))) / bn) tol = false ->
      length z = N -> answers (resid N A b (gx s)) z -> length beta = (nrestart + 1)%nat -> Pre xc (k + 1) (next_state k s z beta).
    Hypothesis Hagain : forall step sc s, C step sc -> Post (gx sc) (nrestart - 1) s -> gs_inv b nrestart s ->
      slt (ssqrt (sqnorm N (resid N A b (gx s))) / bn) tol = false -> C (step + nrestart) s.
    Lemma gcr_inner_ok n : forall xc k step rn s, (k + n = nrestart)%nat -> (0 < n)%nat -> (step < maxiter)%nat -> Pre xc k s ->
      nok (gcr_inner ssqrt slt N Aapply prec maxiter tol nrestart bn n k step rn s)
        (fun '(s', m, rn') => exists k', (k <= k' < nrestart)%nat /\ (m + k = step + k' + 1)%nat /\ (m <= maxiter)%nat /\
           Post xc k' s' /\ gs_inv b (k' + 1) s' /\ rn' = ssqrt (sqnorm N (resid N A b (gx s'))) /\
           (slt (rn' / bn) tol = false -> k' = (nrestart - 1)%nat \/ m = maxiter)).
    Proof.
      induction n as [|n IH]; intros xc k step rn s Hkn Hn Hst Hp; [lia|]. cbn [gcr_inner].
      pose proof (Hpre _ _ _ Hp) as Hi. assert (k < nrestart)%nat as Hk by lia.
      eapply nok_bind; [apply (gcr_update_ok b); [apply Hi|exact Hk]|]. intros ? ->.
      pose proof (Hup _ _ _ Hk Hp) as Hpo. pose proof (update_inv _ _ _ Hi Hk) as Hi'. clear Hp Hi.
      generalize dependent (update_state k s). intros s' Hpo Hi'. clear s.
      assert (gres s' = resid N A b (gx s')) as Er by apply Hi'.
      eapply nok_bind; [rewrite Er; apply vdot_ok; apply resid_length|]. intros ? ->. cbv zeta.
      change (dot N (resid N A b (gx s')) (resid N A b (gx s'))) with (sqnorm N (resid N A b (gx s'))).
      destruct (slt (ssqrt (sqnorm N (resid N A b (gx s'))) / bn) tol) eqn:Et.
      { apply nok_ret. exists k. repeat (split; [assumption || reflexivity || lia|]). rewrite Et. discriminate. }
      destruct (Nat.eqb_spec k (nrestart - 1)) as [Ek|Ek].
      { apply nok_ret. exists k. repeat (split; [assumption || reflexivity || lia|]). auto. }
      destruct (Nat.leb_spec maxiter (step + 1)) as [Em|Em].
      { apply nok_ret. exists k. repeat (split; [assumption || reflexivity || lia|]). intros _. right. lia. }
      eapply nok_bind; [apply (gcr_next_ok b); [apply Hi'|lia]|]. intros s2 (z & beta & Lz & Hz & Lbe & ->).
      rewrite Er in Hz. eapply nok_mono; [apply (IH xc); [lia|lia|exact Em|]|].
      - apply Hnext; auto. lia.
      - intros [[s2 m] rn']. cbn beta iota. intros (k' & H1 & H2 & H3 & H4). exists k'. split; [lia|]. split; [lia|]. split; [lia|]. exact H4.
    Qed.
    Lemma gcr_loop_ok fuel : forall step rn s, (0 < nrestart)%nat -> (maxiter <= step + fuel)%nat -> C step s ->
      nok (gcr_loop ssqrt slt N Aapply Agemv3 prec maxiter tol nrestart b bn fuel step rn s)
        (fun '(x', m, rn') => (maxiter <= step)%nat /\ x' = gx s /\ m = step /\ rn' = rn \/
           (step < m <= maxiter)%nat /\ rn' = ssqrt (sqnorm N (resid N A b x')) /\ ((m < maxiter)%nat -> slt (rn' / bn) tol = true) /\
           exists sc m0 k' s', C m0 sc /\ (m0 = step -> sc = s) /\ (step <= m0)%nat /\ (k' < nrestart)%nat /\ (m = m0 + k' + 1)%nat /\
             (step < m0 -> step + nrestart <= m0)%nat /\ Post (gx sc) k' s' /\ gs_inv b (k' + 1) s' /\ x' = gx s').
    Proof.
      induction fuel as [|fuel IH]; intros step rn s Hn Hf Hc; cbn [gcr_loop];
        (destruct (Nat.ltb_spec step maxiter) as [Hs|Hs]; cbn [negb]; [|apply nok_ret; left; repeat split; assumption]); [lia|].
      eapply nok_bind; [apply gcr_start_ok; [exact Hb|apply (HC _ _ Hc)|exact Hn]|]. intros s1 (p0 & L0 & H0 & ->).
      pose proof (Hstart _ _ _ Hc L0 H0) as Hp.
      eapply nok_bind; [apply vdot_ok; apply resid_length|]. intros ? ->.
      eapply nok_bind; [apply (gcr_inner_ok nrestart (gx s) 0 step); [reflexivity|exact Hn|exact Hs|exact Hp]|].
      intros [[s' m] rn'] (k' & H1 & H2 & H3 & H4 & H5 & -> & H6).
      destruct (slt (ssqrt (sqnorm N (resid N A b (gx s'))) / bn) tol) eqn:Et.
      - apply nok_ret. right. split; [lia|]. split; [reflexivity|]. split; [intros _; exact Et|].
        exists s, step, k', s'. repeat (split; [assumption || reflexivity || lia|]). assumption || reflexivity.
      - destruct (decide (maxiter <= m)%nat) as [Hm|Hm].
        + replace (gcr_loop ssqrt slt N Aapply Agemv3 prec maxiter tol nrestart b bn fuel m (ssqrt (sqnorm N (resid N A b (gx s')))) s')
            with (nret (gx s', m, ssqrt (sqnorm N (resid N A b (gx s')))))
            by (destruct fuel; cbn [gcr_loop]; rewrite (proj2 (Nat.ltb_ge _ _) Hm); reflexivity).
          apply nok_ret. right. split; [lia|]. split; [reflexivity|]. split; [lia|].
          exists s, step, k', s'. repeat (split; [assumption || reflexivity || lia|]). assumption || reflexivity.
        + destruct (H6 eq_refl) as [Ek|Ek]; [|lia]. subst k'. replace (nrestart - 1 + 1)%nat with nrestart in H5 by lia.
          assert (m = (step + nrestart)%nat) as -> by lia.
          eapply nok_mono; [apply IH; [exact Hn|lia|eapply Hagain; eassumption]|].
          intros [[x2 m2] rn2] [(G1 & _)|(G1 & G2 & G3 & sc & m0 & k2 & s2 & G4 & G5 & G6 & G7 & G8 & G9 & G10)]; [lia|right].
          split; [lia|]. split; [exact G2|]. split; [exact G3|]. exists sc, m0, k2, s2. split; [exact G4|]. split; [intros; lia|].
          split; [lia|]. split; [lia|]. split; [lia|]. split; [lia|exact G10].
    Qed.
  End Gcr.
End Facts.
