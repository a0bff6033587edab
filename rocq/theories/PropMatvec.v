(** * PropMatvec: properties C08, C09 (products with row-stored matrices) *)
From Verif Require Import Base Alg SRMatrix Nd Matvec MatvecFacts MatvecMain TriSpec TriFacts Inst.
From Coq Require Import QArith.Qcanon.
Open Scope nat_scope.

(** ** C08: y = A x *)
(** scalar matrices: under every schedule the run ends normally, the result [y'] having n
    entries with (A x)_i = y'_i; the old contents of the output do not matter *)
Theorem C08_scalar_product : forall (F : Type) (O : SOps F) (R : CRing F) (M : srmat F) x y,
  wf_pat M -> wf_nodup M -> wf_vals 1 M -> length x = nbrows M -> length y = nbrows M ->
  nok (csr_apply M x y) (fun y' => length y' = nbrows M /\ is_prod (nbrows M) (dense M) x y').
Proof.
  intros F O R M x y Hw Hn Hv Hx Hy. unfold wf_vals in Hv. eapply nok_mono; [apply csr_apply_spec; auto; lia|].
  intros y' [Hl H]. split; [exact Hl|]. intros i Hi. rewrite (vat_eq _ _ _ (H i Hi)). symmetry. apply row_value0; auto.
Qed.
(** the same with blocks, both storage orders *)
Theorem C08_block_product : forall (F : Type) (O : SOps F) (R : CRing F) so bs (M : srmat F) x y,
  wf_pat M -> wf_nodup M -> wf_vals bs M -> length x = nbrows M * bs -> length y = nbrows M * bs ->
  nok (bsr_apply so bs M x y) (fun y' => length y' = nbrows M * bs /\ is_prod (nbrows M * bs) (bdense so bs M) x y').
Proof.
  intros F O R so bs M x y Hw Hn Hv Hx Hy. eapply nok_mono; [apply bsr_apply_spec; auto|].
  intros y' [Hl H]. split; [exact Hl|]. intros I HI. destruct (unflat bs (nbrows M) I HI) as (i & p & -> & Hi & Hp).
  rewrite (vat_eq _ _ _ (H i p Hi Hp)). rewrite (brow_value so bs M x id s1 s0 i p one_mul Hw Hn Hi Hp). symmetry. apply one_plus_zero.
Qed.
(** whatever the arithmetic (floating point included), all schedules give the same result *)
Theorem C08_schedule_independent : forall (F : Type) (O : SOps F) so bs (M : srmat F) x, wf_pat M ->
  (wf_vals 1 M -> length x = nbrows M ->
    exists r, forall y, length y = nbrows M -> nok (csr_apply M x y) (fun y' => y' = r)) /\
  (wf_vals bs M -> length x = nbrows M * bs ->
    exists r, forall y, length y = nbrows M * bs -> nok (bsr_apply so bs M x y) (fun y' => y' = r)).
Proof.
  intros F O so bs M x Hw. unfold wf_vals. split; intros Hv Hx; eexists; intros y Hy.
  - eapply determinate, csr_apply_spec; auto; lia.
  - apply (determinate_blocks _ (nbrows M) bs (fun i p => facc s0 (fun jj => bterm so bs M x id jj p) (rp M i) (rp M (i + 1)))), bsr_apply_spec; auto.
Qed.
(** the hypotheses hold of [exM] and of [exB] with 2x2 blocks; one of the schedules *)
Example C08_case : wf_pat exM /\ wf_nodup exM /\ wf_vals 1 exM /\ wf_pat exB /\ wf_nodup exB /\ wf_vals 2 exB /\
  csr_apply exM [q 1; q 2; q 3] [q 9; q 9; q 9] (Ok [q 6; q 15; q 11]).
Proof.
  split; [apply exM_pat|]. split; [apply sorted_nodup, exM_sorted|]. split; [reflexivity|].
  split; [apply exB_pat|]. split; [apply sorted_nodup, exB_sorted|]. split; [reflexivity|].
  exists [2; 0; 1]. split; [|reflexivity]. apply (Permutation_app_comm [2] [0; 1]).
Qed.

(** ** C09: z = a A x + b y; [y = None] means that y and z are the same array *)
Theorem C09_scalar_gemv3 : forall (F : Type) (O : SOps F) (R : CRing F) (M : srmat F) a x b y z,
  wf_pat M -> wf_nodup M -> wf_vals 1 M -> length x = nbrows M -> length z = nbrows M ->
  let yy := match y with Some y => y | None => z end in length yy = nbrows M ->
  nok (csr_gemv3 M a x b y z) (fun z' => length z' = nbrows M /\
    forall i, i < nbrows M -> vat z' i = (a * bsum (nbrows M) (fun j => dense M i j * vat x j) + b * vat yy i)%s).
Proof.
  intros F O R M a x b y z Hw Hn Hv Hx Hz yy Hy. unfold wf_vals in Hv. eapply nok_mono; [apply csr_gemv3_spec; auto; lia|].
  intros z' [Hl H]. split; [exact Hl|]. intros i Hi. rewrite (vat_eq _ _ _ (H i Hi)). apply row_value; auto.
Qed.
Theorem C09_block_gemv3 : forall (F : Type) (O : SOps F) (R : CRing F) so bs (M : srmat F) a x b y z,
  wf_pat M -> wf_nodup M -> wf_vals bs M -> length x = nbrows M * bs -> length z = nbrows M * bs ->
  let yy := match y with Some y => y | None => z end in length yy = nbrows M * bs ->
  nok (bsr_gemv3 so bs M a x b y z) (fun z' => length z' = nbrows M * bs /\
    forall I, I < nbrows M * bs -> vat z' I = (a * bsum (nbrows M * bs) (fun J => bdense so bs M I J * vat x J) + b * vat yy I)%s).
Proof.
  intros F O R so bs M a x b y z Hw Hn Hv Hx Hz yy Hy. eapply nok_mono; [apply bsr_gemv3_spec; auto|].
  intros z' [Hl H]. split; [exact Hl|]. intros I HI. destruct (unflat bs (nbrows M) I HI) as (i & p & -> & Hi & Hp).
  rewrite (vat_eq _ _ _ (H i p Hi Hp)). apply brow_value; auto.
Qed.
Theorem C09_schedule_independent : forall (F : Type) (O : SOps F) so bs (M : srmat F) a x b y z, wf_pat M ->
  let yy := match y with Some y => y | None => z end in
  (wf_vals 1 M -> length x = nbrows M -> length z = nbrows M -> length yy = nbrows M -> exists r, nok (csr_gemv3 M a x b y z) (fun z' => z' = r)) /\
  (wf_vals bs M -> length x = nbrows M * bs -> length z = nbrows M * bs -> length yy = nbrows M * bs ->
    exists r, nok (bsr_gemv3 so bs M a x b y z) (fun z' => z' = r)).
Proof.
  intros F O so bs M a x b y z Hw yy. unfold wf_vals. split; intros Hv Hx Hz Hy; eexists.
  - eapply determinate, csr_gemv3_spec; auto; lia.
  - apply (determinate_blocks _ (nbrows M) bs (fun i p => facc (b * vat (arg_y y z) (i * bs + p))%s (fun jj => bterm so bs M x (fun v => a * v)%s jj p) (rp M i) (rp M (i + 1)))), bsr_gemv3_spec; auto.
Qed.
Example C09_case : csr_gemv3 exM (q 2) [q 1; q 2; q 3] (q (-1)) None [q 1; q 2; q 3] (Ok [q 11; q 28; q 19]) /\
  csr_gemv3 exM (q 2) [q 1; q 2; q 3] (q (-1)) (Some [q 0; q 0; q 1]) [q 1; q 2; q 3] (Ok [q 12; q 30; q 21]).
Proof. split; exists [0; 1; 2]; split; reflexivity. Qed.

Print Assumptions C08_scalar_product.
Print Assumptions C08_block_product.
Print Assumptions C08_schedule_independent.
Print Assumptions C09_scalar_gemv3.
Print Assumptions C09_block_gemv3.
Print Assumptions C09_schedule_independent.
