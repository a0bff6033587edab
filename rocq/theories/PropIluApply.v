(** * PropIluApply: properties C34, C35, C36, C37 (applying an ILU factorisation) *)
From Verif Require Import Base Alg SRMatrix Async AsyncTheory AsyncSystem AsyncSweeps Nd Kernels
  IluApply IluApplyFacts TriSpec TriFacts IluApplyProofs Chains IluApplyMain IluApplyStall Inst.
From Coq Require Import QArith.Qcanon.
Open Scope nat_scope.

(** ** C34: sequential application solves L U x = S r, z = S x *)
Theorem C34_scalar_sequential_apply :
  forall (F : Type) (O : SOps F) (R : Field F) (M : srmat F) (ilu : list F) scale r,
  let n := nbrows M in
  let LU := mprod n (unitlower (entry M ilu)) (upper (entry M ilu)) in
  wf_mat M -> length ilu = nnz M -> (forall i, i < n -> entry M ilu i i <> s0) ->
  scale_ok scale n -> length r = n ->
  exists x, length x = n /\ is_prod n LU x (scaled_rhs scale r) /\
    (forall x', length x' = n -> is_prod n LU x' (scaled_rhs scale r) -> x' = x) /\
    exists y, forall ytemp z nsweeps chunk usethreads nthr init,
      length ytemp = n -> length z = n -> 1 <= nsweeps -> 1 <= chunk -> init <> INIT_A_NONE ->
      usethreads = false \/ nthr = 1 ->
      nok (scalar_ilu0_apply M ilu scale ytemp nsweeps chunk usethreads nthr init r z)
          (fun out => out = (y, scaled_sol scale x)).
Proof.
  intros F O R M ilu scale r n LU HM Hl Hp Hsc Hr. pose proof HM as (Hw & Hd & Hs).
  destruct (scalar_apply_sequential M ilu HM scale r Hl) as (x & H1 & H2 & H3 & y & _ & H4); auto.
  - intros i Hi. rewrite <- (entry_diag M ilu Hd Hs i Hi). apply Hp. exact Hi.
  - exists x. split; [exact H1|]. split; [exact H2|]. split; [exact H3|]. exists y. exact H4.
Qed.
(** Block matrices: the stored diagonal blocks are the inverses of those of U. *)
Theorem C34_block_sequential_apply :
  forall (F : Type) (O : SOps F) (R : CRing F) so bs (M : srmat F) (ilu : list F) D scale r,
  let n := nbrows M * bs in
  let LU := mprod n (bunitlower bs (bentry so bs M ilu)) (bupper bs (bentry so bs M ilu) D) in
  1 <= bs -> wf_mat M -> length ilu = nnz M * (bs * bs) ->
  (forall i, i < nbrows M -> is_inverse bs (dblock bs (bentry so bs M ilu) i) (dblock bs D i)) ->
  scale_ok scale n -> length r = n ->
  exists x, length x = n /\ is_prod n LU x (scaled_rhs scale r) /\
    (forall x', length x' = n -> is_prod n LU x' (scaled_rhs scale r) -> x' = x) /\
    exists y, forall ytemp z nsweeps chunk usethreads nthr init,
      length ytemp = n -> length z = n -> 1 <= nsweeps -> 1 <= chunk -> init <> INIT_A_NONE ->
      usethreads = false \/ nthr = 1 ->
      nok (block_ilu0_apply so bs M ilu scale ytemp nsweeps chunk usethreads nthr init r z)
          (fun out => out = (y, scaled_sol scale x)).
Proof.
  intros F O R so bs M ilu D scale r n LU Hb HM Hl Hp Hsc Hr. pose proof HM as (Hw & Hd & Hs).
  destruct (block_apply_sequential so bs M ilu HM D scale r Hb Hl) as (x & H1 & H2 & H3 & y & _ & H4); auto.
  - intros i Hi p q Hp' Hq'.
    assert (forall p q, p < bs -> q < bs -> dblock bs (bentry so bs M ilu) i p q = bent so bs ilu (dg M i) p q) as E.
    { intros p0 q0 Hp0 Hq0. unfold dblock. rewrite bentry_flat by done.
      rewrite (pos_diag M i (sorted_nodup M Hs) Hd Hi). reflexivity. }
    destruct (Hp i Hi p q Hp' Hq') as [I1 I2]. unfold mprod in *. split.
    + rewrite <- I1. apply bsum_ext. intros k Hk. rewrite E by done. reflexivity.
    + rewrite <- I2. apply bsum_ext. intros k Hk. rewrite E by done. reflexivity.
  - exists x. split; [exact H1|]. split; [exact H2|]. split; [exact H3|]. exists y. exact H4.
Qed.
Example C34_scalar_case :
  wf_mat exM /\ length (vals exM) = nnz exM /\ (forall i, i < 3 -> entry exM (vals exM) i i <> s0) /\
  scale_ok (Some [q 2; q 3; q 1]) 3.
Proof.
  split; [split; [apply exM_pat|split; [apply exM_diag|apply exM_sorted]]|]. split; [reflexivity|].
  split; [|reflexivity]. intros [|[|[|]]] H; [discriminate..|lia].
Qed.
Example C34_block_case :
  wf_mat exB /\ length (vals exB) = nnz exB * (2 * 2) /\
  (forall i, i < 3 -> is_inverse 2 (dblock 2 (bentry RowMajor 2 exB (vals exB)) i) (dblock 2 exD i)).
Proof.
  split; [split; [apply exB_pat|split; [apply exB_diag|apply exB_sorted]]|]. split; [reflexivity|].
  intros [|[|[|]]] H; [| | |lia];
    (intros [|[|]] [|[|]] H1 H2; try lia; split; vm_compute; f_equal; apply Eqdep_dec.UIP_dec; decide equality; decide equality).
Qed.

(** ** C35: the option "none" never works *)
Theorem C35_init_none_refuted :
  forall (F : Type) (O : SOps F) (M : srmat F) (ilu : list F) scale ytemp nsweeps chunk usethreads nthr r z,
  let n := nbrows M in
  wf_mat M -> length ilu = nnz M -> scale_ok scale n -> length r = n -> length ytemp = n -> length z = n ->
  1 <= chunk -> 1 <= nthr ->
  forall o, scalar_ilu0_apply M ilu scale ytemp nsweeps chunk usethreads nthr INIT_A_NONE r z o <->
    o = Throw " scalar_ilu0_apply: Invalid init type!".
Proof.
  intros F O M ilu scale ytemp k c u nthr r z n (Hw & Hd & Hs) Hl Hsc Hr Hy Hz Hc Hn o.
  apply (ilu0_apply_init_none 1 n (scalar_lowC M ilu) (scalar_upC M ilu) (lowdep M)); rewrite ?Nat.mul_1_r; auto.
  intros z' i Hz' Hi. apply scalar_lowC_ok; auto; fold n; lia.
Qed.
Theorem C35_block_init_none_refuted :
  forall (F : Type) (O : SOps F) so bs (M : srmat F) (ilu : list F) scale ytemp nsweeps chunk usethreads nthr r z,
  let n := nbrows M * bs in
  wf_mat M -> length ilu = nnz M * (bs * bs) -> scale_ok scale n -> length r = n -> length ytemp = n -> length z = n ->
  1 <= chunk -> 1 <= nthr ->
  forall o, block_ilu0_apply so bs M ilu scale ytemp nsweeps chunk usethreads nthr INIT_A_NONE r z o <->
    o = Throw " scalar_ilu0_apply: Invalid init type!".
Proof.
  intros F O so bs M ilu scale ytemp k c u nthr r z n (Hw & Hd & Hs) Hl Hsc Hr Hy Hz Hc Hn o.
  apply (ilu0_apply_init_none bs (nbrows M) (block_lowC so bs M ilu) (block_upC so bs M ilu) (lowdep M)); auto.
  intros z' i Hz' Hi. apply block_lowC_ok; auto.
Qed.

(** ** C36: asynchronous sweeps *)
(** the exact solution survives every schedule *)
Theorem C36_exact_solution_stable :
  forall (F : Type) (O : SOps F) (R : Field F) (M : srmat F) (ilu : list F) rhs y nthr q,
  let n := nbrows M in
  wf_mat M -> length ilu = nnz M -> (forall i, i < n -> entry M ilu i i <> s0) ->
  length rhs = n -> length y = n -> (forall r, r ∈ concat q -> r < n) ->
  (is_prod n (unitlower (entry M ilu)) y rhs ->
     region_safe (T 1 (scalar_lowC M ilu rhs)) nthr q y /\
     forall y', region (T 1 (scalar_lowC M ilu rhs)) nthr q y y' -> y' = y) /\
  (is_prod n (upper (entry M ilu)) y rhs ->
     region_safe (T 1 (scalar_upC M ilu rhs)) nthr q y /\
     forall y', region (T 1 (scalar_upC M ilu rhs)) nthr q y y' -> y' = y).
Proof.
  intros F O R M ilu rhs y nthr q n (Hw & Hd & Hs) Hl Hp Hr Hy Hq. split; intros H.
  - apply (lower_stable 1 n (scalar_lowC M ilu) (lowdep M)); auto.
    + intros z i Hz Hi. apply scalar_lowC_ok; auto.
    + lia.
    + apply scalar_lower_solution; auto.
  - apply (upper_stable 1 n (scalar_upC M ilu) (updep M)); auto.
    + intros z i Hz Hi. apply scalar_upC_ok; auto.
    + lia.
    + apply scalar_upper_solution; auto. intros i Hi. rewrite <- (entry_diag M ilu Hd Hs i Hi). auto.
Qed.
Theorem C36_block_exact_solution_stable :
  forall (F : Type) (O : SOps F) (R : CRing F) so bs (M : srmat F) (ilu : list F) D rhs y nthr q,
  let n := nbrows M * bs in
  1 <= bs -> wf_mat M -> length ilu = nnz M * (bs * bs) ->
  (forall i, i < nbrows M -> is_inverse bs (bent so bs ilu (dg M i)) (dblock bs D i)) ->
  length rhs = n -> length y = n -> (forall r, r ∈ concat q -> r < nbrows M) ->
  (is_prod n (bunitlower bs (bentry so bs M ilu)) y rhs ->
     region_safe (T bs (block_lowC so bs M ilu rhs)) nthr q y /\
     forall y', region (T bs (block_lowC so bs M ilu rhs)) nthr q y y' -> y' = y) /\
  (is_prod n (bupper bs (bentry so bs M ilu) D) y rhs ->
     region_safe (T bs (block_upC so bs M ilu rhs)) nthr q y /\
     forall y', region (T bs (block_upC so bs M ilu rhs)) nthr q y y' -> y' = y).
Proof.
  intros F O R so bs M ilu D rhs y nthr q n Hb (Hw & Hd & Hs) Hl Hp Hr Hy Hq. split; intros H.
  - apply (lower_stable bs (nbrows M) (block_lowC so bs M ilu) (lowdep M)); auto.
    + intros z i Hz Hi. apply block_lowC_ok; auto.
    + apply block_lower_solution; auto.
  - apply (upper_stable bs (nbrows M) (block_upC so bs M ilu) (updep M)); auto.
    + intros z i Hz Hi. apply block_upC_ok; auto.
    + apply (block_upper_solution so bs M ilu Hw Hd Hs Hb D); auto.
Qed.

(** with a barrier after each sweep, as many sweeps as the longest chain of rows
    depending on each other give the exact solution, from any initial values, under
    every schedule inside the sweeps (each [q] in [qs] cuts the rows in any way and
    order). Bit for bit: no law of arithmetic is used; [y] is the result of the
    sequential solve. *)
Theorem C36_separated_sweeps_exact :
  forall (F : Type) (O : SOps F) (M : srmat F) (ilu : list F) rhs,
  let n := nbrows M in
  wf_mat M -> length ilu = nnz M -> length rhs = n ->
  exists y x,
   (forall m, length m = n -> exec_seq (T 1 (scalar_lowC M ilu rhs)) (seq 0 n) m = Ok y) /\
   (forall m, length m = n -> exec_seq (T 1 (scalar_upC M ilu rhs)) (rev (seq 0 n)) m = Ok x) /\
   forall nthr qs m, length m = n -> (forall q, q ∈ qs -> forall r, r ∈ concat q <-> r < n) ->
   (chains_at_most (lowdep M) n (length qs) ->
      regions_safe (T 1 (scalar_lowC M ilu rhs)) nthr qs m /\
      forall m', regions (T 1 (scalar_lowC M ilu rhs)) nthr qs m m' -> m' = y) /\
   (chains_at_most (updep M) n (length qs) ->
      regions_safe (T 1 (scalar_upC M ilu rhs)) nthr qs m /\
      forall m', regions (T 1 (scalar_upC M ilu rhs)) nthr qs m m' -> m' = x).
Proof.
  intros F O M ilu rhs n (Hw & Hd & Hs) Hl Hr.
  assert (forall z i, length z = n * 1 -> i < n -> kernel_ok 1 (scalar_lowC M ilu z) n (lowdep M) i) as Hk1.
  { intros z i Hz Hi. apply scalar_lowC_ok; auto. }
  assert (forall z i, length z = n * 1 -> i < n -> kernel_ok 1 (scalar_upC M ilu z) n (updep M) i) as Hk2.
  { intros z i Hz Hi. apply scalar_upC_ok; auto. }
  destruct (lower_sweeps 1 n (scalar_lowC M ilu) (lowdep M)) with (rhs := rhs) as (y & [Hyl Hyf] & _ & Hyr); auto.
  { intros i c. apply lowdep_lt; auto. }
  { lia. }
  destruct (upper_sweeps 1 n (scalar_upC M ilu) (updep M)) with (y := rhs) as (x & [Hxl Hxf] & _ & Hxr); auto.
  { intros i c Hi H. apply (updep_lt M i c Hw Hd Hs Hi H). }
  { lia. }
  exists y, x. split; [|split].
  - intros m Hm. pose proof (Hyr m 1 1 ltac:(lia) ltac:(lia) ltac:(lia)) as E. rewrite concat_nowait in E by lia.
    cbn [replicate concat] in E. rewrite app_nil_r in E. exact E.
  - intros m Hm. pose proof (Hxr m 1 1 ltac:(lia) ltac:(lia) ltac:(lia)) as E. rewrite concat_nowait in E by lia.
    cbn [replicate concat] in E. rewrite app_nil_r in E. exact E.
  - intros nthr qs m Hm Hq. split; intros HK.
    + apply (separated_exact 1 n (scalar_lowC M ilu rhs) (lowdep M) (fun i => i)); auto; try lia.
      * intros i Hi. apply Hk1; lia.
      * intros i c Hi _ H. apply (lowdep_lt M i c Hw Hd Hs Hi H).
    + apply (separated_exact 1 n (scalar_upC M ilu rhs) (updep M) (fun i => n - 1 - i)); auto; try lia.
      * intros i Hi. apply Hk2; lia.
      * intros i c Hi Hc H. pose proof (updep_lt M i c Hw Hd Hs Hi H). lia.
Qed.
Theorem C36_block_separated_sweeps_exact :
  forall (F : Type) (O : SOps F) so bs (M : srmat F) (ilu : list F) rhs,
  let n := nbrows M in
  wf_mat M -> length ilu = nnz M * (bs * bs) -> length rhs = n * bs ->
  exists y x,
   (forall m, length m = n * bs -> exec_seq (T bs (block_lowC so bs M ilu rhs)) (seq 0 n) m = Ok y) /\
   (forall m, length m = n * bs -> exec_seq (T bs (block_upC so bs M ilu rhs)) (rev (seq 0 n)) m = Ok x) /\
   forall nthr qs m, length m = n * bs -> (forall q, q ∈ qs -> forall r, r ∈ concat q <-> r < n) ->
   (chains_at_most (lowdep M) n (length qs) ->
      regions_safe (T bs (block_lowC so bs M ilu rhs)) nthr qs m /\
      forall m', regions (T bs (block_lowC so bs M ilu rhs)) nthr qs m m' -> m' = y) /\
   (chains_at_most (updep M) n (length qs) ->
      regions_safe (T bs (block_upC so bs M ilu rhs)) nthr qs m /\
      forall m', regions (T bs (block_upC so bs M ilu rhs)) nthr qs m m' -> m' = x).
Proof.
  intros F O so bs M ilu rhs n (Hw & Hd & Hs) Hl Hr.
  assert (forall z i, length z = n * bs -> i < n -> kernel_ok bs (block_lowC so bs M ilu z) n (lowdep M) i) as Hk1.
  { intros z i Hz Hi. apply block_lowC_ok; auto. }
  assert (forall z i, length z = n * bs -> i < n -> kernel_ok bs (block_upC so bs M ilu z) n (updep M) i) as Hk2.
  { intros z i Hz Hi. apply block_upC_ok; auto. }
  destruct (lower_sweeps bs n (block_lowC so bs M ilu) (lowdep M)) with (rhs := rhs) as (y & [Hyl Hyf] & _ & Hyr); auto.
  { intros i c. apply lowdep_lt; auto. }
  destruct (upper_sweeps bs n (block_upC so bs M ilu) (updep M)) with (y := rhs) as (x & [Hxl Hxf] & _ & Hxr); auto.
  { intros i c Hi H. apply (updep_lt M i c Hw Hd Hs Hi H). }
  exists y, x. split; [|split].
  - intros m Hm. pose proof (Hyr m 1 1 ltac:(lia) ltac:(lia) ltac:(lia)) as E. rewrite concat_nowait in E by lia.
    cbn [replicate concat] in E. rewrite app_nil_r in E. exact E.
  - intros m Hm. pose proof (Hxr m 1 1 ltac:(lia) ltac:(lia) ltac:(lia)) as E. rewrite concat_nowait in E by lia.
    cbn [replicate concat] in E. rewrite app_nil_r in E. exact E.
  - intros nthr qs m Hm Hq. split; intros HK.
    + apply (separated_exact bs n (block_lowC so bs M ilu rhs) (lowdep M) (fun i => i)); auto; try lia.
      intros i c Hi _ H. apply (lowdep_lt M i c Hw Hd Hs Hi H).
    + apply (separated_exact bs n (block_upC so bs M ilu rhs) (updep M) (fun i => n - 1 - i)); auto; try lia.
      intros i c Hi Hc H. pose proof (updep_lt M i c Hw Hd Hs Hi H). lia.
Qed.
(** what a dependency is: a stored entry left (right) of the diagonal *)
Theorem C36_dependencies : forall A (M : srmat A) i c, wf_mat M -> i < nbrows M ->
  (lowdep M i c <-> c < i /\ pos M i c <> None) /\ (updep M i c <-> i < c /\ pos M i c <> None).
Proof.
  intros A M i c (Hw & Hd & Hs) Hi. pose proof (row_bounds M Hw Hd i Hi) as Hb. split; split.
  - intros H. split; [apply (lowdep_lt M i c); auto|]. destruct H as (j & Hj & E). intros Hp.
    rewrite pos_None in Hp by done. apply (Hp j); [split; [auto|lia]|auto].
  - intros [Hlt Hp]. destruct (pos M i c) as [j|] eqn:E; [|congruence].
    apply pos_Some in E as [Hj E]; [|done]. exists j. split; [|auto]. pose proof (before_diag M i j Hs Hd Hj).
    destruct Hj. lia.
  - intros H. split; [apply (updep_lt M i c); auto|]. destruct H as (j & Hj & E). intros Hp.
    rewrite pos_None in Hp by done. apply (Hp j); [split; [auto|lia]|auto].
  - intros [Hlt Hp]. destruct (pos M i c) as [j|] eqn:E; [|congruence].
    apply pos_Some in E as [Hj E]; [|done]. exists j. split; [|auto]. pose proof (after_diag M i j Hs Hd Hj).
    destruct Hj. lia.
Qed.
(** as many sweeps as rows are always enough *)
Theorem C36_rows_many_sweeps_suffice : forall A (M : srmat A), wf_mat M ->
  chains_at_most (lowdep M) (nbrows M) (nbrows M).
Proof. intros A M (Hw & Hd & Hs). apply chains_increasing. intros i c. apply lowdep_lt; auto. Qed.

(** The code does not separate the sweeps (nowait): for every chunk size, number
    of sweeps and initialisation there is a matrix, and a schedule of two threads,
    for which the application does not return the solution. *)
Theorem C36_nowait_sweeps_exact_refuted :
  forall (F : Type) (O : SOps F) (R : Field F) chunk nsweeps init,
  1 <= chunk -> 1 <= nsweeps -> init <> INIT_A_NONE ->
  exists (M : srmat F) ilu r, wf_mat M /\ length ilu = nnz M /\ length r = nbrows M /\
    (forall i, i < nbrows M -> entry M ilu i i <> s0) /\
    forall ytemp z, length ytemp = nbrows M -> length z = nbrows M ->
    exists y' z', scalar_ilu0_apply M ilu None ytemp nsweeps chunk true 2 init r z (Ok (y', z')) /\
      ~ is_prod (nbrows M) (mprod (nbrows M) (unitlower (entry M ilu)) (upper (entry M ilu))) z' r.
Proof.
  intros F O R c k init Hc Hk Hi. exists (stallM c), (stall_ilu c), (stall_r c).
  pose proof (stall_wf c Hc) as HM. split; [exact HM|].
  split; [rewrite (stall_nnz c Hc); apply replicate_length|]. split; [apply replicate_length|]. split.
  - intros i Hi'. destruct HM as (Hw & Hd & Hs). rewrite (entry_diag _ _ Hd Hs i Hi').
    rewrite (vat_ilu c Hc); [apply field_10|].
    pose proof (row_bounds _ Hw Hd i Hi'). rewrite (stall_nnz c Hc) in *. lia.
  - intros ytemp z Hy Hz. destruct (async_apply_wrong c Hc k init ytemp z Hk Hi Hy Hz) as (y' & z' & H1 & _ & H2).
    exists y', z'. auto.
Qed.

(** ** C37: level scheduling equals the sequential solve, bit for bit *)
Theorem C37_scalar_level_apply :
  forall (F : Type) (O : SOps F) (M : srmat F) (ilu : list F) levels scale r,
  let n := nbrows M in
  wf_mat M -> valid_levels M levels -> length ilu = nnz M -> scale_ok scale n -> length r = n ->
  exists out,
    (forall ytemp z nthr, 1 <= nthr -> length ytemp = n -> length z = n ->
       nok (scalar_level_ilu0_apply M ilu levels scale ytemp nthr r z) (fun o => o = out)) /\
    (forall ytemp z nsweeps chunk usethreads nthr init,
       length ytemp = n -> length z = n -> 1 <= nsweeps -> 1 <= chunk -> init <> INIT_A_NONE ->
       usethreads = false \/ nthr = 1 ->
       nok (scalar_ilu0_apply M ilu scale ytemp nsweeps chunk usethreads nthr init r z) (fun o => o = out)).
Proof.
  intros F O M ilu levels scale r n HM Hlev Hl Hsc Hr. pose proof HM as (Hw & Hd & Hs).
  destruct (level_apply_gen M HM 1 (scalar_lowC M ilu) (scalar_upC M ilu) levels scale r)
    as (out & H1 & H2); rewrite ?Nat.mul_1_r; auto.
  - intros z i Hz Hi. apply scalar_lowC_ok; auto; lia.
  - intros z i Hz Hi. apply scalar_upC_ok; auto; lia.
  - exists out. rewrite !Nat.mul_1_r in *. split; [exact H1|exact H2].
Qed.
Theorem C37_block_level_apply :
  forall (F : Type) (O : SOps F) so bs (M : srmat F) (ilu : list F) levels scale r,
  let n := nbrows M * bs in
  wf_mat M -> valid_levels M levels -> length ilu = nnz M * (bs * bs) -> scale_ok scale n -> length r = n ->
  exists out,
    (forall ytemp z nthr, 1 <= nthr -> length ytemp = n -> length z = n ->
       nok (block_level_ilu0_apply so bs M ilu levels scale ytemp nthr r z) (fun o => o = out)) /\
    (forall ytemp z nsweeps chunk usethreads nthr init,
       length ytemp = n -> length z = n -> 1 <= nsweeps -> 1 <= chunk -> init <> INIT_A_NONE ->
       usethreads = false \/ nthr = 1 ->
       nok (block_ilu0_apply so bs M ilu scale ytemp nsweeps chunk usethreads nthr init r z) (fun o => o = out)).
Proof.
  intros F O so bs M ilu levels scale r n HM Hlev Hl Hsc Hr. pose proof HM as (Hw & Hd & Hs).
  apply (level_apply_gen M HM bs (block_lowC so bs M ilu) (block_upC so bs M ilu) levels scale r); auto.
  - intros z i Hz Hi. apply block_lowC_ok; auto.
  - intros z i Hz Hi. apply block_upC_ok; auto.
Qed.
Example C37_case : wf_mat exL /\ valid_levels exL [0; 2; 4] /\ length (vals exL) = nnz exL.
Proof.
  split; [split; [apply exL_pat|split; [apply exL_diag|apply exL_sorted]]|]. split; [|reflexivity].
  split; [reflexivity|]. split; [reflexivity|]. split.
  - intros [|[|[|l]]] a b Ha Hb; simpl in *; try discriminate; injection Ha as <-; injection Hb as <-; lia.
  - intros [|[|[|l]]] a b i c Ha Hb Hi Hc Hne; simpl in *; try discriminate; injection Ha as <-; injection Hb as <-.
    + destruct i as [|[|]], c as [|[|]]; try lia; reflexivity.
    + destruct i as [|[|[|[|]]]], c as [|[|[|[|]]]]; try lia; reflexivity.
Qed.

Print Assumptions C34_scalar_sequential_apply.
Print Assumptions C34_block_sequential_apply.
Print Assumptions C35_init_none_refuted.
Print Assumptions C35_block_init_none_refuted.
Print Assumptions C36_exact_solution_stable.
Print Assumptions C36_block_exact_solution_stable.
Print Assumptions C36_separated_sweeps_exact.
Print Assumptions C36_block_separated_sweeps_exact.
Print Assumptions C36_nowait_sweeps_exact_refuted.
Print Assumptions C37_scalar_level_apply.
Print Assumptions C37_block_level_apply.
