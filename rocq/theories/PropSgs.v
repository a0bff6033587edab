(** * PropSgs: properties C37 (Gauss-Seidel part), C38, C39, C40, C42, C43 *)
From Verif Require Import Base Alg SRMatrix Async AsyncTheory AsyncSystem AsyncSweeps Nd Kernels KernelFacts
  IluApply IluApplyFacts TriSpec TriFacts IluApplyProofs IluApplyMain Sgs SgsFacts SgsProofs SgsForms SgsMain Memory Inst.
From Coq Require Import QArith.Qcanon Field.
Open Scope nat_scope.

(** ** C38: symmetric Gauss-Seidel *)
(** Computing the preconditioner and applying it: the forward half gives (D+L) y = r
    for every number of threads (it is always sequential); with one thread the
    output is the only x with (D+L) D^-1 (D+U) x = r, whatever work vector, output
    and stored diagonal contained, for every initialisation including "none". *)
Theorem C38_scalar_sgs :
  forall (F : Type) (O : SOps F) (R : Field F) (M : srmat F) r,
  let n := nbrows M in
  let A := dense M in
  let SGS := mprod n (lower A) (mprod n (diag_inv A) (upper A)) in
  wf_mat M -> length (vals M) = nnz M -> (forall i, i < n -> A i i <> s0) -> length r = n ->
  exists x y, length x = n /\ is_prod n SGS x r /\ (forall x', length x' = n -> is_prod n SGS x' r -> x' = x) /\
    length y = n /\ is_prod n (lower A) y r /\
    forall d0 ytemp z nsweeps chunk nthr init,
      length d0 = n -> length ytemp = n -> length z = n -> 1 <= nsweeps -> 1 <= chunk -> 1 <= nthr ->
      nok (ndo d := jacobi_setup M d0 in
           sgs_apply 1 n (scalar_fgsC M d) (scalar_bgsC M d) ytemp nsweeps chunk nthr init r z)
          (fun out => fst out = y /\ (nthr = 1 -> snd out = x)).
Proof.
  intros F O R M r n A SGS HM Hl Hnz Hr. destruct (mat_deps M HM) as (D1 & D2 & D3).
  assert (forall x b, is_prod (n * 1) (sgs_matrix 1 n A (diag_inv A)) x b <-> is_prod n SGS x b) as Hsgs.
  { intros x b. rewrite Nat.mul_1_r. apply is_prod_ext. intros i j Hi Hj. unfold sgs_matrix, SGS. rewrite !Nat.mul_1_r.
    apply mprod_ext.
    - intros k Hk. unfold blower, lower. rewrite !Nat.div_1_r.
      destruct (decide (k < i)), (decide (k <= i)), (decide (i = k)); try reflexivity; lia.
    - intros k Hk. apply mprod_ext; [reflexivity|]. intros l Hl'. unfold bupper, upper. rewrite !Nat.div_1_r.
      destruct (decide (l < j)), (decide (l <= j)), (decide (l = j)); try reflexivity; lia. }
  destruct (sgs_main 1 n n A (diag_inv A) sdinv (scalar_fgsC M) (scalar_bgsC M) (scalar_relaxC M)
     (lowdep M) (updep M) (offdep M) (jacobi_setup M) (scalar_bdiag_inverse A n Hnz) (scalar_good M HM Hl Hnz) D1 D2 r)
    as (y & x & H1 & H2 & H3 & H4 & H5 & H6); [lia|].
  exists x, y. rewrite Nat.mul_1_r in *. split; [exact H3|]. split; [apply Hsgs; exact H4|].
  split; [intros x' Hx' Hp; apply H5; [exact Hx'|apply Hsgs; exact Hp]|]. split; [exact H1|]. split.
  { apply (is_prod_ext n (blower 1 A A)); [|exact H2]. intros i k Hi Hk. unfold blower, lower. rewrite !Nat.div_1_r.
    destruct (decide (k < i)), (decide (k <= i)), (decide (i = k)); try reflexivity; lia. }
  intros d0 ytemp z k c nthr init Hd0 Hy Hz Hk Hc Hn. apply H6; auto.
Qed.
Theorem C38_block_sgs :
  forall (F : Type) (O : SOps F) (R : CRing F) so bs inv (M : srmat F) Dinv r,
  let n := nbrows M in
  let N := n * bs in
  let A := bdense so bs M in
  let SGS := mprod N (blower bs A A) (mprod N Dinv (bupper bs A A)) in
  wf_mat M -> 1 <= bs -> length (vals M) = nnz M * (bs * bs) -> inverse_oracle so bs inv ->
  is_inverse N (bdiag bs A) Dinv -> length r = N ->
  exists x y, length x = N /\ is_prod N SGS x r /\ (forall x', length x' = N -> is_prod N SGS x' r -> x' = x) /\
    length y = N /\ is_prod N (blower bs A A) y r /\
    forall d0 ytemp z nsweeps chunk nthr init,
      length d0 = n * (bs * bs) -> length ytemp = N -> length z = N -> 1 <= nsweeps -> 1 <= chunk -> 1 <= nthr ->
      nok (ndo d := bjacobi_setup inv bs M d0 in
           sgs_apply bs n (block_fgsC so bs M d) (block_bgsC so bs M d) ytemp nsweeps chunk nthr init r z)
          (fun out => fst out = y /\ (nthr = 1 -> snd out = x)).
Proof.
  intros F O R so bs inv M Dinv r n N A SGS HM Hbs Hl Hor Hinv Hr. destruct (mat_deps M HM) as (D1 & D2 & D3).
  destruct (sgs_main bs n (n * (bs * bs)) A Dinv (bdinv so bs) (block_fgsC so bs M) (block_bgsC so bs M) (block_relaxC so bs M)
     (lowdep M) (updep M) (offdep M) (bjacobi_setup inv bs M) Hinv (block_good so bs inv M Dinv HM Hbs Hl Hor Hinv) D1 D2 r Hr)
    as (y & x & H1 & H2 & H3 & H4 & H5 & H6).
  exists x, y. do 5 (split; [assumption|]).
  intros d0 ytemp z k c nthr init Hd0 Hy Hz Hk Hc Hn. apply H6; auto.
Qed.

(** ** C37: level-scheduled Gauss-Seidel equals the sequential one, bit for bit *)
Theorem C37_level_sgs_sequential :
  forall (F : Type) (O : SOps F) (M : srmat F) levels d r,
  let n := nbrows M in
  wf_mat M -> valid_levels M levels -> length (vals M) = nnz M -> length d = n -> length r = n ->
  exists out,
    (forall ytemp z nthr, length ytemp = n -> length z = n -> 1 <= nthr ->
       nok (level_sgs_apply 1 (scalar_fgsC M d) (scalar_bgsC M d) levels ytemp nthr r z) (fun o => o = out)) /\
    (forall ytemp z nsweeps chunk init, length ytemp = n -> length z = n -> 1 <= nsweeps -> 1 <= chunk ->
       nok (sgs_apply 1 n (scalar_fgsC M d) (scalar_bgsC M d) ytemp nsweeps chunk 1 init r z) (fun o => o = out)).
Proof.
  intros F O M levels d r n HM Hlev Hl Hd Hr. destruct (mat_deps M HM) as (D1 & D2 & D3).
  destruct (mat_levels M levels HM Hlev) as (L1 & L2 & L3). destruct HM as (Hw & Hdg & Hs).
  assert (forall z i, length z = n * 1 -> i < n -> kernel_ok 1 (scalar_fgsC M d z) n (lowdep M) i) as K1.
  { intros z i Hz Hi. apply scalar_fgsC_ok; auto. }
  assert (forall z i, length z = n * 1 -> i < n -> kernel_ok 1 (scalar_bgsC M d z) n (updep M) i) as K2.
  { intros z i Hz Hi. apply scalar_bgsC_ok; auto. }
  destruct (sgs_apply_spec 1 n _ _ _ _ K1 K2 D1 D2 r) as (ys & zs & H1 & H2 & H3 & H4 & H5); [lia|].
  destruct (level_sgs_spec 1 n _ _ _ _ K1 K2 D1 D2 levels r) as (ys' & zs' & G1 & G2 & G3); [lia|auto|auto|].
  assert (ys' = ys) as -> by auto. assert (zs' = zs) as -> by auto.
  exists (ys, zs). split.
  - intros ytemp z nthr Hy Hz Hn. apply G3; auto; lia.
  - intros ytemp z k c init Hy Hz Hk Hc. eapply nok_mono; [apply H5; auto; lia|].
    intros [a b] [Ha Hb]. simpl in *. rewrite Ha, Hb; auto.
Qed.
Theorem C37_block_level_sgs_sequential :
  forall (F : Type) (O : SOps F) so bs (M : srmat F) levels d r,
  let n := nbrows M in
  let N := n * bs in
  wf_mat M -> valid_levels M levels -> length (vals M) = nnz M * (bs * bs) -> length d = n * (bs * bs) -> length r = N ->
  exists out,
    (forall ytemp z nthr, length ytemp = N -> length z = N -> 1 <= nthr ->
       nok (level_sgs_apply bs (block_fgsC so bs M d) (block_bgsC so bs M d) levels ytemp nthr r z) (fun o => o = out)) /\
    (forall ytemp z nsweeps chunk init, length ytemp = N -> length z = N -> 1 <= nsweeps -> 1 <= chunk ->
       nok (sgs_apply bs n (block_fgsC so bs M d) (block_bgsC so bs M d) ytemp nsweeps chunk 1 init r z) (fun o => o = out)).
Proof.
  intros F O so bs M levels d r n N HM Hlev Hl Hd Hr. destruct (mat_deps M HM) as (D1 & D2 & D3).
  destruct (mat_levels M levels HM Hlev) as (L1 & L2 & L3). destruct HM as (Hw & Hdg & Hs).
  assert (forall z i, length z = n * bs -> i < n -> kernel_ok bs (block_fgsC so bs M d z) n (lowdep M) i) as K1.
  { intros z i Hz Hi. apply block_fgsC_ok; auto. }
  assert (forall z i, length z = n * bs -> i < n -> kernel_ok bs (block_bgsC so bs M d z) n (updep M) i) as K2.
  { intros z i Hz Hi. apply block_bgsC_ok; auto. }
  destruct (sgs_apply_spec bs n _ _ _ _ K1 K2 D1 D2 r Hr) as (ys & zs & H1 & H2 & H3 & H4 & H5).
  destruct (level_sgs_spec bs n _ _ _ _ K1 K2 D1 D2 levels r Hr L1 L2) as (ys' & zs' & G1 & G2 & G3).
  assert (ys' = ys) as -> by auto. assert (zs' = zs) as -> by auto.
  exists (ys, zs). split.
  - intros ytemp z nthr Hy Hz Hn. apply G3; auto.
  - intros ytemp z k c init Hy Hz Hk Hc. eapply nok_mono; [apply H5; auto|].
    intros [a b] [Ha Hb]. simpl in *. rewrite Ha, Hb; auto.
Qed.

(** ** C39: relaxations keep exactly the solutions of A x = b *)
(** A solution is left alone by any number of iterations of every method under every
    schedule ... *)
Theorem C39_solutions_stay :
  forall (F : Type) (O : SOps F) (R : Field F) (M : srmat F) b x d0 its chunk nthr ssqrt slt,
  let n := nbrows M in
  wf_mat M -> length (vals M) = nnz M -> (forall i, i < n -> dense M i i <> s0) ->
  length b = n -> length x = n -> length d0 = n -> 1 <= chunk -> 1 <= nthr ->
  is_prod n (dense M) x b ->
  nok (ndo d := jacobi_setup M d0 in sgs_relax 1 n (scalar_relaxC M d) its chunk nthr b x) (fun x' => x' = x) /\
  nok (ndo d := jacobi_setup M d0 in chaotic_relax 1 n (scalar_relaxC M d) its chunk nthr b x) (fun x' => x' = x) /\
  (forall levels, valid_levels M levels ->
     nok (ndo d := jacobi_setup M d0 in level_relax 1 (scalar_relaxC M d) levels its nthr b x) (fun x' => x' = x)) /\
  (forall p xtemp, length xtemp = n ->
     nok (ndo d := jacobi_setup M d0 in jacobi_relax ssqrt slt 1 n (scalar_relaxC M d) p xtemp b x) (fun x' => x' = x)).
Proof.
  intros F O R M b x d0 its chunk nthr ssqrt slt n HM Hl Hnz Hb Hx Hd0 Hc Hn HP. destruct (mat_deps M HM) as (D1 & D2 & D3).
  destruct (relax_fixed_main 1 n n (dense M) (diag_inv (dense M)) sdinv (scalar_fgsC M) (scalar_bgsC M) (scalar_relaxC M)
     (lowdep M) (updep M) (offdep M) (jacobi_setup M) (scalar_bdiag_inverse (dense M) n Hnz) (scalar_good M HM Hl Hnz)
     ssqrt slt d0 b x) with (its := its) (chunk := chunk) (nthr := nthr) as (H1 & H2 & H3 & H4); rewrite ?Nat.mul_1_r; auto.
  split; [exact H1|]. split; [exact H2|]. split.
  - intros levels Hlev. apply H3, (mat_levels M levels HM Hlev).
  - intros p xtemp Hxt. apply H4. lia.
Qed.
(** ... and a vector that one iteration of any of the methods leaves alone (under
    every schedule) is a solution. *)
Theorem C39_unchanged_only_solutions :
  forall (F : Type) (O : SOps F) (R : Field F) (M : srmat F) b x d0 chunk nthr ssqrt slt,
  let n := nbrows M in
  wf_mat M -> length (vals M) = nnz M -> (forall i, i < n -> dense M i i <> s0) ->
  length b = n -> length x = n -> length d0 = n -> 1 <= chunk -> 1 <= nthr ->
  (nok (ndo d := jacobi_setup M d0 in sgs_relax 1 n (scalar_relaxC M d) 1 chunk nthr b x) (fun x' => x' = x) ->
     is_prod n (dense M) x b) /\
  (nok (ndo d := jacobi_setup M d0 in chaotic_relax 1 n (scalar_relaxC M d) 1 chunk nthr b x) (fun x' => x' = x) ->
     is_prod n (dense M) x b) /\
  (forall levels, valid_levels M levels ->
     nok (ndo d := jacobi_setup M d0 in level_relax 1 (scalar_relaxC M d) levels 1 nthr b x) (fun x' => x' = x) ->
     is_prod n (dense M) x b) /\
  (forall p xtemp, length xtemp = n -> maxits p = 1 ->
     nok (ndo d := jacobi_setup M d0 in jacobi_relax ssqrt slt 1 n (scalar_relaxC M d) p xtemp b x) (fun x' => x' = x) ->
     is_prod n (dense M) x b).
Proof.
  intros F O R M b x d0 chunk nthr ssqrt slt n HM Hl Hnz Hb Hx Hd0 Hc Hn. destruct (mat_deps M HM) as (D1 & D2 & D3).
  pose proof (relax_unchanged_main 1 n n (dense M) (diag_inv (dense M)) sdinv (scalar_fgsC M) (scalar_bgsC M) (scalar_relaxC M)
     (lowdep M) (updep M) (offdep M) (jacobi_setup M) (scalar_bdiag_inverse (dense M) n Hnz) (scalar_good M HM Hl Hnz) D3
     ssqrt slt d0 b x chunk nthr) as H. rewrite Nat.mul_1_r in H. specialize (H Hd0 Hb Hx Hc Hn).
  split; [auto|]. split; [auto|]. split.
  - intros levels Hlev Hk. apply H. right. right. left. exists levels. split; [apply (mat_levels M levels HM Hlev)|exact Hk].
  - intros p xtemp Hxt Hp Hk. apply H. right. right. right. exists p, xtemp. auto.
Qed.
Theorem C39_block_solutions_stay :
  forall (F : Type) (O : SOps F) (R : CRing F) so bs inv (M : srmat F) Dinv b x d0 its chunk nthr ssqrt slt,
  let n := nbrows M in
  let N := n * bs in
  let A := bdense so bs M in
  wf_mat M -> 1 <= bs -> length (vals M) = nnz M * (bs * bs) -> inverse_oracle so bs inv ->
  is_inverse N (bdiag bs A) Dinv ->
  length b = N -> length x = N -> length d0 = n * (bs * bs) -> 1 <= chunk -> 1 <= nthr ->
  is_prod N A x b ->
  nok (ndo d := bjacobi_setup inv bs M d0 in sgs_relax bs n (block_relaxC so bs M d) its chunk nthr b x) (fun x' => x' = x) /\
  nok (ndo d := bjacobi_setup inv bs M d0 in chaotic_relax bs n (block_relaxC so bs M d) its chunk nthr b x) (fun x' => x' = x) /\
  (forall levels, valid_levels M levels ->
     nok (ndo d := bjacobi_setup inv bs M d0 in level_relax bs (block_relaxC so bs M d) levels its nthr b x) (fun x' => x' = x)) /\
  (forall p xtemp, length xtemp = N ->
     nok (ndo d := bjacobi_setup inv bs M d0 in jacobi_relax ssqrt slt bs n (block_relaxC so bs M d) p xtemp b x) (fun x' => x' = x)).
Proof.
  intros F O R so bs inv M Dinv b x d0 its chunk nthr ssqrt slt n N A HM Hbs Hl Hor Hinv Hb Hx Hd0 Hc Hn HP.
  destruct (mat_deps M HM) as (D1 & D2 & D3).
  destruct (relax_fixed_main bs n (n * (bs * bs)) A Dinv (bdinv so bs) (block_fgsC so bs M) (block_bgsC so bs M) (block_relaxC so bs M)
     (lowdep M) (updep M) (offdep M) (bjacobi_setup inv bs M) Hinv (block_good so bs inv M Dinv HM Hbs Hl Hor Hinv)
     ssqrt slt d0 b x) with (its := its) (chunk := chunk) (nthr := nthr) as (H1 & H2 & H3 & H4); auto.
  split; [exact H1|]. split; [exact H2|]. split; [|exact H4].
  intros levels Hlev. apply H3, (mat_levels M levels HM Hlev).
Qed.
Theorem C39_block_unchanged_only_solutions :
  forall (F : Type) (O : SOps F) (R : CRing F) so bs inv (M : srmat F) Dinv b x d0 chunk nthr ssqrt slt,
  let n := nbrows M in
  let N := n * bs in
  let A := bdense so bs M in
  wf_mat M -> 1 <= bs -> length (vals M) = nnz M * (bs * bs) -> inverse_oracle so bs inv ->
  is_inverse N (bdiag bs A) Dinv ->
  length b = N -> length x = N -> length d0 = n * (bs * bs) -> 1 <= chunk -> 1 <= nthr ->
  (nok (ndo d := bjacobi_setup inv bs M d0 in sgs_relax bs n (block_relaxC so bs M d) 1 chunk nthr b x) (fun x' => x' = x) ->
     is_prod N A x b) /\
  (nok (ndo d := bjacobi_setup inv bs M d0 in chaotic_relax bs n (block_relaxC so bs M d) 1 chunk nthr b x) (fun x' => x' = x) ->
     is_prod N A x b) /\
  (forall levels, valid_levels M levels ->
     nok (ndo d := bjacobi_setup inv bs M d0 in level_relax bs (block_relaxC so bs M d) levels 1 nthr b x) (fun x' => x' = x) ->
     is_prod N A x b) /\
  (forall p xtemp, length xtemp = N -> maxits p = 1 ->
     nok (ndo d := bjacobi_setup inv bs M d0 in jacobi_relax ssqrt slt bs n (block_relaxC so bs M d) p xtemp b x) (fun x' => x' = x) ->
     is_prod N A x b).
Proof.
  intros F O R so bs inv M Dinv b x d0 chunk nthr ssqrt slt n N A HM Hbs Hl Hor Hinv Hb Hx Hd0 Hc Hn.
  destruct (mat_deps M HM) as (D1 & D2 & D3).
  pose proof (relax_unchanged_main bs n (n * (bs * bs)) A Dinv (bdinv so bs) (block_fgsC so bs M) (block_bgsC so bs M) (block_relaxC so bs M)
     (lowdep M) (updep M) (offdep M) (bjacobi_setup inv bs M) Hinv (block_good so bs inv M Dinv HM Hbs Hl Hor Hinv) D3
     ssqrt slt d0 b x chunk nthr Hd0 Hb Hx Hc Hn) as H.
  split; [auto|]. split; [auto|]. split.
  - intros levels Hlev Hk. apply H. right. right. left. exists levels. split; [apply (mat_levels M levels HM Hlev)|exact Hk].
  - intros p xtemp Hxt Hp Hk. apply H. right. right. right. exists p, xtemp. auto.
Qed.

(** ** C40: Jacobi *)
Theorem C40_jacobi_apply :
  forall (F : Type) (O : SOps F) (R : Field F) (M : srmat F) d0 r z,
  let n := nbrows M in
  wf_mat M -> length (vals M) = nnz M -> (forall i, i < n -> dense M i i <> s0) ->
  length d0 = n -> length r = n -> length z = n ->
  nok (ndo d := jacobi_setup M d0 in jacobi_apply M d r z)
      (fun z' => length z' = n /\ forall i, i < n -> (dense M i i * vat z' i = vat r i)%s).
Proof. intros. apply scalar_jacobi_main; auto. Qed.
Theorem C40_block_jacobi_apply :
  forall (F : Type) (O : SOps F) (R : CRing F) so bs inv (M : srmat F) Dinv d0 r z,
  let n := nbrows M in
  let N := n * bs in
  wf_mat M -> 1 <= bs -> length (vals M) = nnz M * (bs * bs) -> inverse_oracle so bs inv ->
  is_inverse N (bdiag bs (bdense so bs M)) Dinv ->
  length d0 = n * (bs * bs) -> length r = N -> length z = N ->
  nok (ndo d := bjacobi_setup inv bs M d0 in bjacobi_apply so bs M d r z)
      (fun z' => length z' = N /\ is_prod N (bdiag bs (bdense so bs M)) z' r).
Proof. intros. eapply block_jacobi_main; eauto. Qed.

(** what the user asked for as stopping criterion: the change of step [j] *)
Definition change {F} {O : SOps F} ssqrt N A Dinv b (x : list F) (j : nat) : F :=
  ssqrt (sqdist N (iterate N A Dinv b x (j + 1)) (iterate N A Dinv b x j)).
Definition met {F} {O : SOps F} (slt : F -> F -> bool) (p : SolveParams F) (first dn : F) : Prop :=
  slt dn (atol p) = true \/ slt (dn / first)%s (rtol p) = true \/ slt (dtol p) (dn / first)%s = true.
(** The result is the m-th iterate of x := x + D^-1 (b - A x). Without checking, m is
    the iteration limit. With checking no step before the last one met a tolerance,
    and if m is below the limit then the last step met one. *)
Theorem C40_jacobi_relax :
  forall (F : Type) (O : SOps F) (R : Field F) (M : srmat F) ssqrt slt p d0 xtemp b x,
  let n := nbrows M in
  let A := dense M in
  let ch := change ssqrt n A (diag_inv A) b x in
  wf_mat M -> length (vals M) = nnz M -> (forall i, i < n -> A i i <> s0) ->
  length d0 = n -> length xtemp = n -> length b = n -> length x = n ->
  nok (ndo d := jacobi_setup M d0 in jacobi_relax ssqrt slt 1 n (scalar_relaxC M d) p xtemp b x)
      (fun x' => exists m, m <= maxits p /\ x' = iterate n A (diag_inv A) b x m /\
         (ctol p = false -> m = maxits p) /\
         (ctol p = true -> (forall j, j + 1 < m -> ~ met slt p (ch 0) (ch j)) /\
            (m < maxits p -> 1 <= m /\ met slt p (ch 0) (ch (m - 1))))).
Proof.
  intros F O R M ssqrt slt p d0 xtemp b x n A ch HM Hl Hnz Hd0 Hxt Hb Hx. destruct (mat_deps M HM) as (D1 & D2 & D3).
  pose proof (jacobi_main 1 n n A (diag_inv A) sdinv (scalar_fgsC M) (scalar_bgsC M) (scalar_relaxC M)
     (lowdep M) (updep M) (offdep M) (jacobi_setup M) (scalar_bdiag_inverse A n Hnz) (scalar_good M HM Hl Hnz)
     ssqrt slt p d0 xtemp b x) as H. rewrite Nat.mul_1_r in H. specialize (H Hd0 Hxt Hb Hx).
  eapply nok_mono; [exact H|]. intros x' (m & Hm & -> & H1 & H2). exists m. split; [exact Hm|]. split; [reflexivity|].
  split; [exact H1|]. intros Hc. destruct (H2 Hc) as [H3 H4].
  assert (forall j, jstop 1 n A (diag_inv A) ssqrt slt p b x j = true <-> met slt p (ch 0) (ch j)) as Hst.
  { intros j. unfold jstop, jacobi_stop, jdiff, met. rewrite !orb_true_iff, Nat.mul_1_r.
    change (ssqrt (sqdist n (iterate n A (diag_inv A) b x (j + 1)) (iterate n A (diag_inv A) b x j))) with (ch j).
    change (ssqrt (sqdist n (iterate n A (diag_inv A) b x (0 + 1)) (iterate n A (diag_inv A) b x 0))) with (ch 0). tauto. }
  split.
  - intros j Hj Hmet. apply Hst in Hmet. rewrite H3 in Hmet by done. discriminate.
  - intros Hlt. destruct (H4 Hlt) as [H5 H6]. split; [exact H5|]. apply Hst, H6.
Qed.
Theorem C40_block_jacobi_relax :
  forall (F : Type) (O : SOps F) (R : CRing F) so bs inv (M : srmat F) Dinv ssqrt slt p d0 xtemp b x,
  let n := nbrows M in
  let N := n * bs in
  let A := bdense so bs M in
  let ch := change ssqrt N A Dinv b x in
  wf_mat M -> 1 <= bs -> length (vals M) = nnz M * (bs * bs) -> inverse_oracle so bs inv ->
  is_inverse N (bdiag bs A) Dinv ->
  length d0 = n * (bs * bs) -> length xtemp = N -> length b = N -> length x = N ->
  nok (ndo d := bjacobi_setup inv bs M d0 in jacobi_relax ssqrt slt bs n (block_relaxC so bs M d) p xtemp b x)
      (fun x' => exists m, m <= maxits p /\ x' = iterate N A Dinv b x m /\
         (ctol p = false -> m = maxits p) /\
         (ctol p = true -> (forall j, j + 1 < m -> ~ met slt p (ch 0) (ch j)) /\
            (m < maxits p -> 1 <= m /\ met slt p (ch 0) (ch (m - 1))))).
Proof.
  intros F O R so bs inv M Dinv ssqrt slt p d0 xtemp b x n N A ch HM Hbs Hl Hor Hinv Hd0 Hxt Hb Hx.
  pose proof (jacobi_main bs n (n * (bs * bs)) A Dinv (bdinv so bs) (block_fgsC so bs M) (block_bgsC so bs M) (block_relaxC so bs M)
     (lowdep M) (updep M) (offdep M) (bjacobi_setup inv bs M) Hinv (block_good so bs inv M Dinv HM Hbs Hl Hor Hinv)
     ssqrt slt p d0 xtemp b x Hd0 Hxt Hb Hx) as H.
  eapply nok_mono; [exact H|]. intros x' (m & Hm & -> & H1 & H2). exists m. split; [exact Hm|]. split; [reflexivity|].
  split; [exact H1|]. intros Hc. destruct (H2 Hc) as [H3 H4].
  assert (forall j, jstop bs n A Dinv ssqrt slt p b x j = true <-> met slt p (ch 0) (ch j)) as Hst.
  { intros j. unfold jstop, jacobi_stop, jdiff, met. rewrite !orb_true_iff.
    change (ssqrt (sqdist N (iterate N A Dinv b x (j + 1)) (iterate N A Dinv b x j))) with (ch j).
    change (ssqrt (sqdist N (iterate N A Dinv b x (0 + 1)) (iterate N A Dinv b x 0))) with (ch 0). tauto. }
  split.
  - intros j Hj Hmet. apply Hst in Hmet. rewrite H3 in Hmet by done. discriminate.
  - intros Hlt. destruct (H4 Hlt) as [H5 H6]. split; [exact H5|]. apply Hst, H6.
Qed.

(** cases meeting the hypotheses *)
Example scalar_case : wf_mat exM /\ length (vals exM) = nnz exM /\ (forall i, i < nbrows exM -> dense exM i i <> s0) /\
  wf_mat exL /\ valid_levels exL [0; 2; 4] /\
  is_prod 3 (dense exM) [q 1; q 1; q 1] [q 5; q 8; q 4].
Proof.
  split; [split; [apply exM_pat|split; [apply exM_diag|apply exM_sorted]]|]. split; [reflexivity|].
  split; [intros [|[|[|]]] H; [discriminate..|simpl in H; lia]|].
  split; [split; [apply exL_pat|split; [apply exL_diag|apply exL_sorted]]|].
  split.
  - split; [reflexivity|]. split; [reflexivity|]. split.
    + intros [|[|[|]]] a b Ha Hb; simpl in *; try discriminate; injection Ha as <-; injection Hb as <-; lia.
    + intros [|[|[|]]] a b i c Ha Hb; simpl in *; try discriminate; injection Ha as <-; injection Hb as <-;
        intros Hi Hc Hne.
      * assert (i = 0 /\ c = 1 \/ i = 1 /\ c = 0) as [[-> ->]|[-> ->]] by lia; reflexivity.
      * assert (i = 2 /\ c = 3 \/ i = 3 /\ c = 2) as [[-> ->]|[-> ->]] by lia; reflexivity.
  - intros [|[|[|]]] H; [| | |lia]; vm_compute; f_equal; apply Eqdep_dec.UIP_dec; decide equality; decide equality.
Qed.
(** an inverse of 2x2 blocks by the adjugate, and the inverse of the block diagonal of exB *)
Definition inv2 (b : list Qc) : list Qc :=
  let a00 := vat b 0 in let a01 := vat b 1 in let a10 := vat b 2 in let a11 := vat b 3 in
  let det := (a00 * a11 - a01 * a10)%Qc in
  [a11 / det; - a01 / det; - a10 / det; a00 / det]%Qc.
Lemma inv2_oracle : inverse_oracle RowMajor 2 inv2.
Proof.
  intros blk Hb. split; [reflexivity|]. intros Y HY.
  destruct blk as [|a00 [|a01 [|a10 [|a11 [|]]]]]; try discriminate.
  set (y00 := Y 0 0). set (y01 := Y 0 1). set (y10 := Y 1 0). set (y11 := Y 1 1).
  assert (a00 * y00 + a01 * y10 = 1 /\ a00 * y01 + a01 * y11 = 0 /\
          a10 * y00 + a11 * y10 = 0 /\ a10 * y01 + a11 * y11 = 1)%Qc as (E1 & E2 & E3 & E4).
  { pose proof (HY 0 0 ltac:(lia) ltac:(lia)) as [H1 _]. pose proof (HY 0 1 ltac:(lia) ltac:(lia)) as [H2 _].
    pose proof (HY 1 0 ltac:(lia) ltac:(lia)) as [H3 _]. pose proof (HY 1 1 ltac:(lia) ltac:(lia)) as [H4 _].
    unfold mprod in *. cbn in H1, H2, H3, H4. fold y00 y01 y10 y11 in H1, H2, H3, H4.
    change (Q2Qc _) with 0%Qc in H1, H2, H3, H4.
    repeat split.
    - transitivity (0 + a00 * y00 + a01 * y10)%Qc; [ring|exact H1].
    - transitivity (0 + a00 * y01 + a01 * y11)%Qc; [ring|exact H2].
    - transitivity (0 + a10 * y00 + a11 * y10)%Qc; [ring|exact H3].
    - transitivity (0 + a10 * y01 + a11 * y11)%Qc; [ring|exact H4]. }
  set (det := (a00 * a11 - a01 * a10)%Qc).
  assert (det <> 0%Qc) as Hdet.
  { intros Hz. assert (det * (y00 * y11 - y01 * y10) = 1)%Qc as E.
    { transitivity ((a00 * y00 + a01 * y10) * (a10 * y01 + a11 * y11) - (a00 * y01 + a01 * y11) * (a10 * y00 + a11 * y10))%Qc.
      - unfold det. ring.
      - rewrite E1, E2, E3, E4. reflexivity. }
    rewrite Hz in E. revert E. replace (0 * (y00 * y11 - y01 * y10))%Qc with 0%Qc by ring. discriminate. }
  assert (det <> 0)%Qc as Hdet' by exact Hdet.
  assert (forall x : Qc, (x / det * det)%Qc = x) as Hdiv by (intros x; field; exact Hdet').
  intros [|[|]] [|[|]] H1 H2; try lia; unfold mprod, bent, inv2; cbn; fold det; split.
  all: unfold ident; cbn; repeat (rewrite decide_True by lia); repeat (rewrite decide_False by lia).
  all: change (Q2Qc (QArith_base.inject_Z 1)) with 1%Qc; change (Q2Qc (QArith_base.inject_Z 0)) with 0%Qc.
  all: change (Q2Qc {| QArith_base.Qnum := 0; QArith_base.Qden := 1 |}) with 0%Qc.
  all: unfold det in *; field; exact Hdet'.
Qed.
Lemma exB_bdiag_inverse : is_inverse (3 * 2) (bdiag 2 (bdense RowMajor 2 exB)) (bdiag 2 exD).
Proof.
  intros i j Hi Hj.
  assert (forall i, i < 6 -> i = 0 \/ i = 1 \/ i = 2 \/ i = 3 \/ i = 4 \/ i = 5) as H by lia.
  apply H in Hi. apply H in Hj.
  destruct Hi as [->|[->|[->|[->|[->| ->]]]]]; destruct Hj as [->|[->|[->|[->|[->| ->]]]]];
    split; vm_compute; f_equal; apply Eqdep_dec.UIP_dec; decide equality; decide equality.
Qed.
Example block_case : wf_mat exB /\ 1 <= 2 /\ length (vals exB) = nnz exB * (2 * 2) /\ inverse_oracle RowMajor 2 inv2 /\
  is_inverse (nbrows exB * 2) (bdiag 2 (bdense RowMajor 2 exB)) (bdiag 2 exD).
Proof.
  split; [split; [apply exB_pat|split; [apply exB_diag|apply exB_sorted]]|]. split; [lia|]. split; [reflexivity|].
  split; [apply inv2_oracle|apply exB_bdiag_inverse].
Qed.

(** ** C42: the identity *)
Theorem C42_identity :
  forall (F : Type) (O : SOps F) bs (M : srmat F) x y, length x = nbrows M * bs -> length y = nbrows M * bs ->
  nok (noprec_apply bs M x y) (fun y' => y' = x) /\ nok (noprec_apply_relax x y) (fun y' => y' = y).
Proof.
  intros F O bs M x y Hx Hy. split; [apply vcopy_spec; auto|apply nok_ret; reflexivity].
Qed.
Example C42_case : length [q 1; q 2; q 3] = nbrows exM * 1. Proof. reflexivity. Qed.

(** ** C43: application has no memory *)
(** A call: right-hand side, output buffer, number of sweeps, chunk size, number of
    threads. *)
Record call F := Call { c_r : list F; c_z : list F; c_sweeps : nat; c_chunk : nat; c_nthr : nat }.
Arguments Call {F}. Arguments c_r {F}. Arguments c_z {F}. Arguments c_sweeps {F}. Arguments c_chunk {F}. Arguments c_nthr {F}.
Definition call_ok {F} (N : nat) (c : call F) : Prop := length (c_r c) = N /\ length (c_z c) = N.
(** the same call with another output buffer *)
Definition same_call {F} (c c' : call F) : Prop :=
  c_r c = c_r c' /\ c_sweeps c = c_sweeps c' /\ c_chunk c = c_chunk c' /\ c_nthr c = c_nthr c'.
(** For every history of calls on one object, the possible outputs of every call
    are exactly those of the same call on an object that was never used ([y0]: its
    work vector), with another output buffer. Kernels [fgsC], [bgsC] are arbitrary:
    scalar and block, for every matrix and stored diagonal. *)
Theorem C43_sgs_no_memory :
  forall (F : Type) (O : SOps F) w n (fgsC bgsC : list F -> nat -> @P F (list F)) init y0 y calls,
  let N := n * w in
  let ap := fun y c => sgs_apply w n fgsC bgsC y (c_sweeps c) (c_chunk c) (c_nthr c) init (c_r c) (c_z c) in
  init <> INIT_A_NONE -> length y0 = N -> length y = N -> Forall (call_ok N) calls ->
  (forall zs, history ap calls y (Ok zs) <-> Forall2 (output_of ap y0) calls zs) /\
  (forall c c', call_ok N c -> call_ok N c' -> same_call c c' -> forall z, output_of ap y0 c z <-> output_of ap y0 c' z).
Proof.
  intros F O w n fgsC bgsC init y0 y calls N ap Hi Hy0 Hy Hc. split.
  - intros zs. apply (history_memoryless ap (fun y => length y = N) (call_ok N)); auto.
    + intros y1 y2 c H1 H2 [Hr Hz] o. apply sgs_apply_memory; auto.
    + intros y1 c y2 z H1 _ H. eapply sgs_apply_work; eauto.
  - intros c c' [Hr Hz] [Hr' Hz'] (E1 & E2 & E3 & E4) z. unfold output_of, ap. rewrite E1, E2, E3, E4.
    split; intros [y' H]; exists y'; (eapply sgs_apply_memory; [..|exact H]); auto.
Qed.
Theorem C43_ilu_no_memory :
  forall (F : Type) (O : SOps F) w n (lowC upC : list F -> nat -> @P F (list F)) scale usethreads init y0 y calls,
  let N := n * w in
  let ap := fun y c => ilu0_apply w n lowC upC scale y (c_sweeps c) (c_chunk c) usethreads (c_nthr c) init (c_r c) (c_z c) in
  init <> INIT_A_NONE -> scale_ok scale N -> length y0 = N -> length y = N -> Forall (call_ok N) calls ->
  (forall zs, history ap calls y (Ok zs) <-> Forall2 (output_of ap y0) calls zs) /\
  (forall c c', call_ok N c -> call_ok N c' -> same_call c c' -> forall z, output_of ap y0 c z <-> output_of ap y0 c' z).
Proof.
  intros F O w n lowC upC scale ut init y0 y calls N ap Hi Hsc Hy0 Hy Hc. split.
  - intros zs. apply (history_memoryless ap (fun y => length y = N) (call_ok N)); auto.
    + intros y1 y2 c H1 H2 [Hr Hz] o. apply ilu0_apply_memory; auto.
    + intros y1 c y2 z H1 _ H. eapply ilu0_apply_work; eauto.
  - intros c c' [Hr Hz] [Hr' Hz'] (E1 & E2 & E3 & E4) z. unfold output_of, ap. rewrite E1, E2, E3, E4.
    split; intros [y' H]; exists y'; (eapply ilu0_apply_memory; [..|exact H]); auto.
Qed.
(** without initialisation the output buffer does matter: 0 sweeps return it *)
Theorem C43_init_none_remembers_refuted :
  exists (M : srmat Qc) d y r z z', length z = nbrows M /\ length z' = nbrows M /\
  exists o, sgs_apply 1 (nbrows M) (scalar_fgsC M d) (scalar_bgsC M d) y 0 1 1 INIT_A_NONE r z o /\
          ~ sgs_apply 1 (nbrows M) (scalar_fgsC M d) (scalar_bgsC M d) y 0 1 1 INIT_A_NONE r z' o.
Proof.
  exists exM, [], [], [], [q 1; q 1; q 1], [q 2; q 2; q 2]. split; [reflexivity|]. split; [reflexivity|].
  exists (Ok ([], [q 1; q 1; q 1])). split.
  - exists (Ok []). split; [reflexivity|]. exists (Ok []). split; [reflexivity|].
    exists (Ok [q 1; q 1; q 1]). split; [reflexivity|]. exists (Ok [q 1; q 1; q 1]). split; reflexivity.
  - intros H. destruct H as (o1 & H1 & H). change (o1 = Ok []) in H1. subst o1.
    destruct H as (o2 & H2 & H). change (o2 = Ok []) in H2. subst o2.
    destruct H as (o3 & H3 & H). change (o3 = Ok [q 2; q 2; q 2]) in H3. subst o3.
    destruct H as (o4 & H4 & H). change (o4 = Ok [q 2; q 2; q 2]) in H4. subst o4. discriminate.
Qed.
Example C43_case : Forall (call_ok (nbrows exM * 1))
  [Call [q 1; q 2; q 3] [q 0; q 0; q 0] 2 1 4; Call [q 1; q 0; q 3] [q 5; q 0; q 0] 1 2 3].
Proof. repeat constructor. Qed.

Print Assumptions C37_level_sgs_sequential.
Print Assumptions C37_block_level_sgs_sequential.
Print Assumptions C38_scalar_sgs.
Print Assumptions C38_block_sgs.
Print Assumptions C39_solutions_stay.
Print Assumptions C39_unchanged_only_solutions.
Print Assumptions C39_block_solutions_stay.
Print Assumptions C39_block_unchanged_only_solutions.
Print Assumptions C40_jacobi_apply.
Print Assumptions C40_block_jacobi_apply.
Print Assumptions C40_jacobi_relax.
Print Assumptions C40_block_jacobi_relax.
Print Assumptions C42_identity.
Print Assumptions C43_sgs_no_memory.
Print Assumptions C43_ilu_no_memory.
Print Assumptions C43_init_none_remembers_refuted.
