(** * NanFacts: the solvers in IEEE double precision, when the first residual is zero *)
From Verif Require Import Base Alg SRMatrix Nd Reduction TriFacts Matvec MatvecFacts Solvers SolversFacts Inst.
From Coq Require Import Floats.SpecFloat ZArith.
Open Scope nat_scope.

(** 0 or -0 *)
Definition dzero (a : double) : Prop := exists s, a = S754_zero s.
Definition dnan (a : double) : Prop := a = S754_nan.
(** std::sqrt, <, <= *)
Definition dsqrt : double -> double := SFsqrt 53 1024.
Definition dlt : double -> double -> bool := SFltb.
Definition dle : double -> double -> bool := SFleb.

Section Laws.
  Open Scope s_scope.
  Implicit Types a b : double.
  Lemma dzero_add a b : dzero a -> dzero b -> dzero (a + b).
  Proof. intros [s ->] [t ->]. destruct s, t; eexists; reflexivity. Qed.
  Lemma dzero_mul a b : dzero a -> dzero b -> dzero (a * b).
  Proof. intros [s ->] [t ->]. eexists; reflexivity. Qed.
  Lemma dzero_opp a : dzero a -> dzero (sopp a).
  Proof. intros [s ->]. eexists; reflexivity. Qed.
  Lemma dzero_div a b : dzero a -> dzero b -> dnan (a / b).
  Proof. intros [s ->] [t ->]. reflexivity. Qed.
  Lemma dnan_add_l a b : dnan a -> dnan (a + b).
  Proof. intros ->. destruct b; reflexivity. Qed.
  Lemma dnan_add_r a b : dnan b -> dnan (a + b).
  Proof. intros ->. destruct a; reflexivity. Qed.
  Lemma dnan_mul_l a b : dnan a -> dnan (a * b).
  Proof. intros ->. destruct b; reflexivity. Qed.
  Lemma dnan_mul_r a b : dnan b -> dnan (a * b).
  Proof. intros ->. destruct a; reflexivity. Qed.
  Lemma dnan_div_l a b : dnan a -> dnan (a / b).
  Proof. intros ->. destruct b; reflexivity. Qed.
  Lemma dnan_opp a : dnan a -> dnan (sopp a).
  Proof. intros ->. reflexivity. Qed.
  Lemma dnan_sqrt a : dnan a -> dnan (dsqrt a).
  Proof. intros ->. reflexivity. Qed.
  Lemma dnan_lt a b : dnan a -> dlt a b = false.
  Proof. intros ->. destruct b; reflexivity. Qed.
  Lemma dnan_le a b : dnan a -> dle a b = false.
  Proof. intros ->. destruct b; reflexivity. Qed.
  (** neither infinite nor not a number *)
  Definition dfinite a : Prop := match a with S754_zero _ | S754_finite _ _ _ => True | _ => False end.
  Lemma dzero_finite a : dzero a -> dfinite a. Proof. intros [s ->]. exact I. Qed.
  Lemma dzero_mul_l a b : dzero a -> dfinite b -> dzero (a * b).
  Proof. intros [s ->]. destruct b; simpl; intros Hb; try contradiction; eexists; reflexivity. Qed.
  Lemma dzero_mul_r a b : dfinite a -> dzero b -> dzero (a * b).
  Proof. intros Ha [s ->]. destruct a; simpl in *; try contradiction; eexists; reflexivity. Qed.
  Lemma done_finite : dfinite (s1 : double). Proof. vm_compute. exact I. Qed.
  Lemma dzero_div_one a : dzero a -> dzero (a / (s1 * s1)).
  Proof. intros [s ->]. vm_compute. destruct s; eexists; reflexivity. Qed.
  Lemma dopp_finite a : dfinite a -> dfinite (sopp a).
  Proof. destruct a; intros H; exact H. Qed.
End Laws.

Section Nan.
  Open Scope s_scope.
  Variable N : nat.
  Notation mk f := (fmap (M:=list) (f : nat -> double) (seq 0 N)).
  Definition zeros (v : list double) : Prop := forall i, (i < N)%nat -> dzero (vat v i).
  Definition nans (v : list double) : Prop := forall i, (i < N)%nat -> dnan (vat v i).
  Definition somenan (v : list double) : Prop := exists i, (i < N)%nat /\ dnan (vat v i).
  Lemma nans_some v : (0 < N)%nat -> nans v -> somenan v.
  Proof. intros H1 H2. exists 0%nat. auto. Qed.
  Lemma zeros_replicate : zeros (replicate N s0).
  Proof. intros i Hi. unfold vat. rewrite lookup_replicate_2 by exact Hi. exists false. reflexivity. Qed.

  Lemma vdot_any (a b : list double) : length a = N -> length b = N ->
    nok (vdot N a b) (fun s => (zeros a -> zeros b -> dzero s) /\ (somenan a -> dnan s)).
  Proof.
    intros Ha Hb. unfold vdot.
    apply (nok_reduce (fun l s => (zeros a -> zeros b -> dzero s) /\ (forall i, Some i ∈ l -> dnan (vat a i) -> dnan s)) sadd).
    - intros l l' s Hp [H1 H2]. split; [exact H1|]. intros i Hi. apply H2. rewrite Hp. exact Hi.
    - intros l1 l2 u v [H1 H2] [H3 H4]. split; [intros; apply dzero_add; auto|]. intros i Hi Hn. apply elem_of_app in Hi as [Hi|Hi].
      + apply dnan_add_l, (H2 i Hi Hn).
      + apply dnan_add_r, (H4 i Hi Hn).
    - split; [intros; exists false; reflexivity|]. intros i Hi. apply elem_of_nil in Hi as [].
    - split; [intros; exists false; reflexivity|]. intros i Hi. apply elem_of_list_singleton in Hi. discriminate Hi.
    - intros l i s Hi [H1 H2]. rewrite (vat_get a i) by lia. cbn [bind]. rewrite (vat_get b i) by lia. cbn [bind]. apply ok_ret. split.
      + intros Za Zb. apply dzero_add; [apply H1; assumption|apply dzero_mul; [apply Za|apply Zb]; lia].
      + intros j Hj Hn. apply elem_of_app in Hj as [Hj|Hj]; [apply dnan_add_l, (H2 j Hj Hn)|].
        apply elem_of_list_singleton in Hj. injection Hj as ->. apply dnan_add_r, dnan_mul_l, Hn.
    - intros s [H1 H2]. split; [exact H1|]. intros (i & Hi & Hn). apply (H2 i); [|exact Hn]. right. apply elem_of_list_fmap. exists i. split; [reflexivity|].
      apply elem_of_range. lia.
  Qed.
  Lemma rhs_any (rhs r rhat : list double) : length rhs = N -> length r = N -> length rhat = N ->
    nok (rhs_loop N rhs r rhat) (fun '(_, rh) => rh = r).
  Proof.
    intros Hb Hr Hh. unfold rhs_loop.
    apply (nok_reduce_shared (fun _ _ => True) sadd) with (J := fun dn x' => length x' = N /\ forall i, i ∈ dn -> x' !! i = Some (vat r i)); auto.
    - split; [exact Hh|]. intros i Hi. apply elem_of_nil in Hi as [].
    - intros dn l i s x' Hdn Hi Hni _ (Hl & Hk). rewrite (vat_get rhs i) by lia. cbn [bind]. rewrite (vat_get r i) by lia. cbn [bind].
      rewrite set_Ok by lia. cbn [bind]. apply ok_ret. split; [exact I|]. split; [rewrite insert_length; exact Hl|].
      intros j Hj. destruct (decide (i = j)) as [<-|Hne]; [rewrite list_lookup_insert by lia; reflexivity|].
      rewrite list_lookup_insert_ne by exact Hne. apply Hk. apply elem_of_app in Hj as [Hj|Hj]; [exact Hj|].
      apply elem_of_list_singleton in Hj. congruence.
    - intros l s x' Hl _ (H1 & H2). apply vec_eq; [lia|]. intros i Hi. apply vat_eq, H2. rewrite Hl. apply elem_of_range. lia.
  Qed.

  Variable Aapply : list double -> list double -> nd (list double).
  Variable Agemv3 : double -> list double -> double -> list double -> list double -> nd (list double).
  Variable prec : list double -> list double -> nd (list double).
  Hypothesis HA : forall x y, length x = N -> length y = N -> nok (Aapply x y) (fun y' => length y' = N /\ (zeros x -> zeros y')).
  Hypothesis HG : forall a x b y z, length x = N -> length y = N -> length z = N ->
    nok (Agemv3 a x b y z) (fun z' => length z' = N /\ (nans x -> somenan z')).
  Hypothesis HP : forall x y, length x = N -> length y = N -> nok (prec x y) (fun y' => length y' = N /\ (zeros x -> zeros y')).
  Variables (maxiter : nat) (tol : double).

  (** ** BiCGSTAB *)
  Definition bshape (s : @bstate double) : Prop :=
    length (bs_r s) = N /\ length (bs_p s) = N /\ length (bs_v s) = N /\ length (bs_y s) = N /\ length (bs_z s) = N /\ length (bs_t s) = N /\ length (bs_x s) = N.
  Lemma bstep_any rhat s : length rhat = N -> bshape s ->
    nok (bicgstab_step N Aapply prec rhat s) (fun '(s', _) => bshape s' /\
      (nans (bs_x s) /\ nans (bs_r s) \/
         zeros rhat /\ zeros (bs_r s) /\ zeros (bs_p s) /\ zeros (bs_v s) /\ bs_omega s = s1 /\ bs_rhoold s = s1 /\ bs_alpha s = s1 ->
       nans (bs_x s') /\ nans (bs_r s'))).
  Proof.
    intros Hrh. destruct s as [om rho0 al r p v y z t x]. unfold bshape. cbn. intros (Lr & Lp & Lv & Ly & Lz & Lt & Lx).
    eapply nok_bind; [apply vdot_any; [exact Hrh|exact Lr]|]. intros rho [Hrho _].
    eapply nok_bind; [apply axpbypcz_ok; assumption|]. intros p' Ep; cbv beta in Ep.
    eapply nok_bind; [apply HP; [subst p'; apply mk_length|exact Ly]|]. intros y' [Ly' Hy].
    eapply nok_bind; [apply HA; assumption|]. intros v' [Lv' Hv].
    eapply nok_bind; [apply vdot_any; assumption|]. intros rv [Hrv _].
    eapply nok_bind; [apply axpby_ok; assumption|]. intros r' Er; cbv beta in Er.
    eapply nok_bind; [apply HP; [subst r'; apply mk_length|exact Lz]|]. intros z' [Lz' _].
    eapply nok_bind; [apply HA; assumption|]. intros t' [Lt' _].
    eapply nok_bind; [apply vdot_any; [assumption|subst r'; apply mk_length]|]. intros tr _.
    eapply nok_bind; [apply vdot_any; assumption|]. intros t2 _.
    eapply nok_bind; [apply axpbypcz_ok; assumption|]. intros x' Ex; cbv beta in Ex.
    eapply nok_bind; [apply axpby_ok; [subst r'; apply mk_length|assumption]|]. intros r2 Er2; cbv beta in Er2.
    apply nok_ret. cbn. split; [subst; rewrite !mk_length; auto 10|].
    assert (nans r' -> nans r2) as Hrr.
    { intros H i Hi. rewrite Er2, (mk_at N _ i Hi). apply dnan_add_l, dnan_mul_r, H, Hi. }
    intros [[Nx Nr]|(Zrh & Zr & Zp & Zv & -> & -> & ->)].
    - split.
      + intros i Hi. rewrite Ex, (mk_at N _ i Hi). apply dnan_add_l, dnan_add_l, dnan_mul_r, Nx, Hi.
      + apply Hrr. intros i Hi. rewrite Er, (mk_at N _ i Hi). apply dnan_add_l, dnan_mul_r, Nr, Hi.
    - assert (dzero rho) as Zrho by auto.
      assert (dzero (rho * s1 / (s1 * s1))) as Zb by (apply dzero_div_one, dzero_mul_l; [exact Zrho|apply done_finite]).
      assert (zeros p') as Zp'.
      { intros i Hi. rewrite Ep, (mk_at N _ i Hi). apply dzero_add; [apply dzero_add|].
        - apply dzero_mul; [exact Zb|apply Zp, Hi].
        - apply dzero_mul_r; [apply done_finite|apply Zr, Hi].
        - apply dzero_mul; [apply dzero_mul_l; [apply dzero_opp, Zb|apply done_finite]|apply Zv, Hi]. }
      assert (zeros v') as Zv' by auto.
      assert (dnan (rho / rv)) as Na by (apply dzero_div; auto).
      split.
      + intros i Hi. rewrite Ex, (mk_at N _ i Hi). apply dnan_add_l, dnan_add_r, dnan_mul_l, Na.
      + apply Hrr. intros i Hi. rewrite Er, (mk_at N _ i Hi). apply dnan_add_r, dnan_mul_l, dnan_opp, Na.
  Qed.
  Lemma bloop_any rhat bn k : (0 < N)%nat -> forall step rn s, length rhat = N -> bshape s ->
    (nans (bs_x s) /\ nans (bs_r s) \/
         zeros rhat /\ zeros (bs_r s) /\ zeros (bs_p s) /\ zeros (bs_v s) /\ bs_omega s = s1 /\ bs_rhoold s = s1 /\ bs_alpha s = s1) ->
    nok (bicgstab_loop dsqrt dlt N Aapply prec tol rhat bn k step rn s) (fun '(x', m, rn') =>
      m = (step + k)%nat /\ (nans (bs_x s) /\ dnan rn \/ (0 < k)%nat -> nans x' /\ dnan rn')).
  Proof.
    intros HN. induction k as [|k IH]; intros step rn s Hrh Hs Hc; cbn [bicgstab_loop].
    - apply nok_ret. split; [lia|]. intros [H|H]; [exact H|lia].
    - eapply nok_bind; [apply bstep_any; assumption|]. intros [s' rho] [Hs' Hn]. destruct (Hn Hc) as [Nx Nr].
      eapply nok_bind; [apply vdot_any; apply Hs'|]. intros rr [_ Hrr]. cbv zeta.
      assert (dnan (dsqrt rr)) as Nrr by (apply dnan_sqrt, Hrr, nans_some; assumption).
      rewrite dnan_lt by (apply dnan_div_l, Nrr).
      eapply nok_mono; [apply IH; [exact Hrh|exact Hs'|left; split; assumption]|].
      intros [[x' m] rn']. cbn beta iota. intros [-> H]. split; [lia|]. intros _. apply H. left. split; assumption.
  Qed.

  (** ** GCR *)
  Variable nrestart : nat.
  Definition gshape (s : @gstate double) : Prop :=
    length (gx s) = N /\ length (gres s) = N /\ length (gz s) = N /\ length (gbeta s) = (nrestart + 1)%nat /\
    length (gp s) = nrestart /\ length (gq s) = nrestart /\ Forall (fun v => length v = N) (gp s) /\ Forall (fun v => length v = N) (gq s).
  Lemma at_shape (l : list (list double)) k : length l = nrestart -> Forall (fun v => length v = N) l -> (k < nrestart)%nat -> exists v, l !! k = Some v /\ length v = N.
  Proof. intros L HF Hk. destruct (lookup_lt_is_Some_2 l k ltac:(lia)) as [v E]. exists v. split; [exact E|]. exact (Forall_lookup_1 (fun v => length v = N) l k v HF E). Qed.
  Lemma gupdate_any k s : gshape s -> (k < nrestart)%nat ->
    nok (gcr_update N k s) (fun s' => gshape s' /\
      (nans (gx s) -> nans (gx s')) /\ (somenan (gres s) -> somenan (gres s')) /\
      (zeros (gres s) -> zeros (default [] (gq s !! k)) -> nans (gx s') /\ nans (gres s'))).
  Proof.
    intros Hg Hk. destruct s as [x res z beta p q]. unfold gshape in *. cbn in *. destruct Hg as (Lx & Lr & Lz & Lb & Lp & Lq & Fp & Fq).
    destruct (at_shape p k Lp Fp Hk) as (pk & Ep & Lpk). destruct (at_shape q k Lq Fq Hk) as (qk & Eq & Lqk).
    eapply nok_get; [exact Eq|]. cbv beta.
    eapply nok_bind; [apply vdot_any; assumption|]. intros a [Ha _].
    eapply nok_bind; [apply vdot_any; assumption|]. intros c [Hc _].
    eapply nok_get; [exact Ep|]. cbv beta.
    eapply nok_bind; [apply axpby_ok; assumption|]. intros x' Ex; cbv beta in Ex.
    eapply nok_bind; [apply axpby_ok; assumption|]. intros r' Er; cbv beta in Er.
    apply nok_ret. cbn. split; [subst; rewrite !mk_length; auto 10|]. split; [|split].
    - intros Nx i Hi. rewrite Ex, (mk_at N _ i Hi). apply dnan_add_l, dnan_mul_r, Nx, Hi.
    - intros (i & Hi & Hn). exists i. split; [exact Hi|]. rewrite Er, (mk_at N _ i Hi). apply dnan_add_l, dnan_mul_r, Hn.
    - intros Zr Zq. rewrite Eq in Zq. simpl in Zq. assert (dnan (a / c)) as Na by (apply dzero_div; auto). split; intros i Hi.
      + rewrite Ex, (mk_at N _ i Hi). apply dnan_add_r, dnan_mul_l, Na.
      + rewrite Er, (mk_at N _ i Hi). apply dnan_add_r, dnan_mul_l, dnan_opp, Na.
  Qed.
  Lemma orth_any bl (pl ql pn qn : list double) : length pl = N -> length ql = N -> length pn = N -> length qn = N ->
    nok (gcr_orth N bl pl ql pn qn) (fun '(p', q') => length p' = N /\ length q' = N).
  Proof.
    intros Hpl Hql Hpn Hqn. unfold gcr_orth. apply (nok_par_for 0 N _ _ (fun _ '(p', q') => length p' = N /\ length q' = N)); [auto| |auto].
    intros dn i [p' q'] _ Hi _ (L1 & L2).
    rewrite (vat_get p' i) by lia. cbn [bind]. rewrite (vat_get pl i) by lia. cbn [bind]. rewrite set_Ok by lia. cbn [bind].
    rewrite (vat_get q' i) by lia. cbn [bind]. rewrite (vat_get ql i) by lia. cbn [bind]. rewrite set_Ok by lia. cbn [bind].
    apply ok_ret. rewrite !insert_length. auto.
  Qed.
  Lemma gnext_any k s : gshape s -> (k + 1 < nrestart)%nat ->
    nok (gcr_next N Aapply prec k s) (fun s' => gshape s' /\ gx s' = gx s /\ gres s' = gres s).
  Proof.
    intros Hg Hk. destruct s as [x res z beta p q]. unfold gshape in *. cbn in *. destruct Hg as (Lx & Lr & Lz & Lb & Lp & Lq & Fp & Fq).
    destruct (at_shape p (k + 1) Lp Fp Hk) as (pn & Ep & Lpn). destruct (at_shape q (k + 1) Lq Fq Hk) as (qn & Eq & Lqn).
    eapply nok_bind; [apply HP; assumption|]. intros z' [Lz' _].
    eapply nok_get; [exact Eq|]. cbv beta.
    eapply nok_bind; [apply HA; assumption|]. intros qn' [Lqn' _].
    eapply nok_get; [exact Ep|]. cbv beta.
    eapply nok_bind; [apply vecassign_ok; assumption|]. intros ? ->.
    eapply nok_bind with (P := fun beta => length beta = (nrestart + 1)%nat).
    { apply (nok_nfor _ _ _ _ (fun _ beta => length beta = (nrestart + 1)%nat)); [lia|exact Lb| |auto].
      intros j be Hj Lbe. destruct (at_shape q j Lq Fq ltac:(lia)) as (qj & Eqj & Lqj).
      eapply nok_get; [exact Eqj|]. cbv beta.
      eapply nok_bind; [apply vdot_any; assumption|]. intros a _.
      eapply nok_bind; [apply vdot_any; assumption|]. intros c _.
      apply nok_lift. rewrite set_Ok by lia. apply ok_ret. rewrite insert_length. exact Lbe. }
    intros beta' Lbe.
    eapply nok_bind with (P := fun '(p', q') => length p' = N /\ length q' = N).
    { apply (nok_nfor _ _ _ _ (fun _ '(p', q') => length p' = N /\ length q' = N)); [lia|auto| |auto].
      intros j [p' q'] Hj [L1 L2]. destruct (at_shape q j Lq Fq ltac:(lia)) as (qj & Eqj & Lqj). destruct (at_shape p j Lp Fp ltac:(lia)) as (pj & Epj & Lpj).
      destruct (lookup_lt_is_Some_2 beta' j ltac:(lia)) as [bj Ebj].
      eapply nok_get; [exact Ebj|]. cbv beta.
      eapply nok_get; [exact Epj|]. cbv beta.
      eapply nok_get; [exact Eqj|]. cbv beta. apply orth_any; assumption. }
    intros [p2 q2] [L1 L2].
    apply nok_set; [lia|]. cbv beta. apply nok_set; [lia|]. cbv beta. apply nok_ret. cbn. rewrite !insert_length.
    split; [|auto]. do 6 (split; [assumption|]). split; apply Forall_insert; assumption.
  Qed.
  Lemma ginner_any bn n : forall k step rn s, (k + n = nrestart)%nat -> (0 < n)%nat -> (step < maxiter)%nat -> gshape s ->
    nans (gx s) /\ somenan (gres s) \/ zeros (gres s) /\ zeros (default [] (gq s !! k)) -> (0 < N)%nat ->
    nok (gcr_inner dsqrt dlt N Aapply prec maxiter tol nrestart bn n k step rn s) (fun '(s', m, rn') =>
      gshape s' /\ (step < m <= maxiter)%nat /\ nans (gx s') /\ dnan rn').
  Proof.
    induction n as [|n IH]; intros k step rn s Hkn Hn Hst Hg Hc HN; [lia|]. cbn [gcr_inner].
    eapply nok_bind; [apply gupdate_any; [exact Hg|lia]|]. intros s' (Hg' & H1 & H2 & H3).
    assert (nans (gx s') /\ somenan (gres s')) as [Nx Nr].
    { destruct Hc as [[Ha Hb]|[Ha Hb]]; [auto|]. destruct (H3 Ha Hb). split; [assumption|]. apply nans_some; assumption. }
    eapply nok_bind; [apply vdot_any; apply Hg'|]. intros rr [_ Hrr]. cbv zeta.
    assert (dnan (dsqrt rr)) as Nrr by (apply dnan_sqrt, Hrr, Nr).
    rewrite dnan_lt by (apply dnan_div_l, Nrr).
    destruct (Nat.eqb_spec k (nrestart - 1)) as [E|E].
    - apply nok_ret. split; [exact Hg'|]. split; [lia|]. split; assumption.
    - destruct (Nat.leb_spec maxiter (step + 1)) as [E2|E2].
      + apply nok_ret. split; [exact Hg'|]. split; [lia|]. split; assumption.
      + eapply nok_bind; [apply gnext_any; [exact Hg'|lia]|]. intros s2 (Hg2 & Ex & Er).
        eapply nok_mono; [apply IH; [lia|lia|lia|exact Hg2| |exact HN]|].
        * left. rewrite Ex, Er. split; assumption.
        * intros [[s3 m] rn3]. cbn beta iota. intros (G1 & G2 & G3). split; [exact G1|]. split; [lia|exact G3].
  Qed.
  Lemma gstart_any b s : length b = N -> gshape s -> (0 < nrestart)%nat ->
    nok (gcr_start Aapply Agemv3 prec b s) (fun s' => gshape s' /\ gx s' = gx s /\ (nans (gx s) -> somenan (gres s')) /\
      (exists z, length z = N /\ Agemv3 (sopp s1) (gx s) s1 b z (Ok (gres s'))) /\ (zeros (gres s') -> zeros (default [] (gq s' !! 0%nat)))).
  Proof.
    intros Hb Hg Hk. destruct s as [x res z beta p q]. unfold gshape in *. cbn in *. destruct Hg as (Lx & Lr & Lz & Lb & Lp & Lq & Fp & Fq).
    destruct (at_shape p 0 Lp Fp Hk) as (pn & Ep & Lpn). destruct (at_shape q 0 Lq Fq Hk) as (qn & Eq & Lqn).
    eapply nok_bind; [apply nok_self, HG; assumption|]. intros res' [[Lres Hres] Hm].
    eapply nok_get; [exact Ep|]. cbv beta.
    eapply nok_bind; [apply HP; assumption|]. intros p0 [Lp0 Zp0].
    apply nok_set; [lia|]. cbv beta.
    eapply nok_get; [exact Eq|]. cbv beta.
    eapply nok_bind; [apply HA; assumption|]. intros q0 [Lq0 Zq0].
    apply nok_set; [lia|]. cbv beta.
    apply nok_ret. cbn. rewrite !insert_length. split.
    - do 6 (split; [assumption|]). split; apply Forall_insert; assumption.
    - split; [reflexivity|]. split; [exact Hres|]. split; [exists res; auto|]. rewrite list_lookup_insert by lia. simpl. auto.
  Qed.
  Lemma gloop_any b bn fuel : (0 < N)%nat -> (0 < nrestart)%nat -> length b = N -> forall step rn s, (maxiter <= step + fuel)%nat -> (step <= maxiter)%nat -> gshape s ->
    nans (gx s) /\ dnan rn \/ (step < maxiter)%nat /\ (forall z r, length z = N -> Agemv3 (sopp s1) (gx s) s1 b z (Ok r) -> zeros r) ->
    nok (gcr_loop dsqrt dlt N Aapply Agemv3 prec maxiter tol nrestart b bn fuel step rn s) (fun '(x', m, rn') => m = maxiter /\ nans x' /\ dnan rn').
  Proof.
    intros HN Hnr Hb. induction fuel as [|fuel IH]; intros step rn s Hf Hle Hg Hc; cbn [gcr_loop];
      (destruct (Nat.ltb_spec step maxiter) as [Hs|Hs]; cbn [negb]; [|apply nok_ret; destruct Hc as [[? ?]|[? _]]; [split; [lia|auto]|lia]]); [lia|].
    eapply nok_bind; [apply gstart_any; assumption|]. intros s1 (Hg1 & Ex & H1 & (z & Lz & Hz) & H2).
    eapply nok_bind; [apply vdot_any; apply Hg1|]. intros rr _.
    eapply nok_bind; [apply (ginner_any bn nrestart 0 step rr s1); [reflexivity|exact Hnr|exact Hs|exact Hg1| |exact HN]|].
    - destruct Hc as [[Nx _]|[_ Hc]]; [left; rewrite Ex; auto|]. right. assert (zeros (gres s1)) as Z by (eapply Hc; eassumption). auto.
    - intros [[s2 m] rn2]. cbn beta iota. intros (Hg2 & Hm & Nx & Nrn). rewrite dnan_lt by (apply dnan_div_l, Nrn).
      apply IH; [lia|lia|exact Hg2|left; auto].
  Qed.
End Nan.
