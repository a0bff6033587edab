(** * Solvers: the iterative solvers which use a preconditioner (tests/solvers.cpp, tests/solvers.hpp)

    The library "solvers" of tests/CMakeLists.txt:3, used by the programs testsolve and
    testreorderedsolve. The matrix and the preconditioner are abstract objects there; here
    they are the section variables [Aapply], [Agemv3] and [prec], each with any number of
    possible outcomes.
    Simplifications: clocks and messages are left out; [maxiter] and [nrestart] are natural
    numbers (a negative maxiter behaves like 0). A new device_vector holds zeros. *)
From Verif Require Import Base Alg Nd Reduction.
Open Scope nat_scope.

(** tests/solvers.hpp:18-27 SolveInfo, without the times *)
Record SolveInfo (F : Type) := Info { converged : bool; iters : nat; resnorm : F; bnorm : F }.
Arguments Info {F}. Arguments converged {F}. Arguments iters {F}. Arguments resnorm {F}. Arguments bnorm {F}.

Section Solvers.
  Context {F : Type} {O : SOps F}.
  (** std::sqrt, < and <= *)
  Variables (ssqrt : F -> F) (slt sle : F -> F -> bool).
  (** A.dim() *)
  Variable N : nat.
  (** A.apply(x, y), A.gemv3(a,x, b,y, z) with y and z different arrays, prec.apply(x, y): the new contents of the last argument *)
  Variable Aapply : list F -> list F -> nd (list F).
  Variable Agemv3 : F -> list F -> F -> list F -> list F -> nd (list F).
  Variable prec : list F -> list F -> nd (list F).
  (** setParams, tests/solvers.cpp:68-70 *)
  Variables (maxiter : nat) (tol : F).

  (** tests/solvers.cpp:20-27 *)
  Definition axpby (p : F) (z : list F) (q : F) (x : list F) : nd (list F) :=
    par_for 0 N (fun i z =>
      let! zi := get z i in
      let! xi := get x i in
      set z i (p * zi + q * xi)%s) z.
  (** tests/solvers.cpp:31-39 *)
  Definition axpbypcz (p : F) (z : list F) (q : F) (x : list F) (r : F) (y : list F) : nd (list F) :=
    par_for 0 N (fun i z =>
      let! zi := get z i in
      let! xi := get x i in
      let! yi := get y i in
      set z i (p * zi + q * xi + r * yi)%s) z.
  (** tests/solvers.cpp:42-51 *)
  Definition vdot (a b : list F) : nd F :=
    reduce_for s0 sadd 0 N (fun i sum =>
      let! ai := get a i in
      let! bi := get b i in
      Ok (sum + ai * bi)%s) s0.
  (** tests/solvers.cpp:53-60 *)
  Definition vecassign (a b : list F) : nd (list F) :=
    par_for 0 N (fun i b => let! ai := get a i in set b i ai) b.
  (** -1.0 *)
  Notation m1 := (sopp s1).

  (** ** tests/solvers.cpp:90-133 RichardsonSolver::solve *)
  (** 107-121; [k] is maxiter - step *)
  Fixpoint richardson_loop (b : list F) (bn : F) (k step : nat) (rn : F) (s ddu du : list F) : nd (list F * nat * F) :=
    match k with
    | 0 => nret (du, step, rn)
    | S k' =>
        ndo s := Agemv3 m1 du s1 b s in
        ndo ss := vdot s s in
        let rn := ssqrt ss in
        if slt (rn / bn)%s tol then nret (du, step, rn) else
        ndo ddu := prec s ddu in
        ndo du := axpby s1 du s1 ddu in
        richardson_loop b bn k' (step + 1) rn s ddu du
    end.
  Definition richardson (b du : list F) : nd (list F * SolveInfo F) :=
    ndo bb := vdot b b in
    let bn := ssqrt bb in
    ndo (du, step, rn) := richardson_loop b bn maxiter 0 s0 (replicate N s0) (replicate N s0) du in
    nret (du, Info false step rn bn).

  (** ** tests/solvers.cpp:140-244 BiCGSTAB::solve *)
  (** what changes from step to step, 153-161 *)
  Record bstate := BS { bs_omega : F; bs_rhoold : F; bs_alpha : F;
    bs_r : list F; bs_p : list F; bs_v : list F; bs_y : list F; bs_z : list F; bs_t : list F; bs_x : list F }.
  (** 185-218: one pass of the loop up to the test; also rho *)
  Definition bicgstab_step (rhat : list F) (s : bstate) : nd (bstate * F) :=
    let '(BS omega rhoold alpha r p v y z t x) := s in
    ndo rho := vdot rhat r in
    let beta := (rho * alpha / (rhoold * omega))%s in
    ndo p := axpbypcz beta p s1 r (sopp beta * omega)%s v in
    ndo y := prec p y in
    ndo v := Aapply y v in
    ndo rv := vdot rhat v in
    let alpha := (rho / rv)%s in
    ndo r := axpby s1 r (sopp alpha) v in
    ndo z := prec r z in
    ndo t := Aapply z t in
    ndo tr := vdot t r in
    ndo t2 := vdot t t in
    let omega := (tr / t2)%s in
    ndo x := axpbypcz s1 x alpha y omega z in
    ndo r := axpby s1 r (sopp omega) t in
    nret (BS omega rhoold alpha r p v y z t x, rho).
  (** 182-229 *)
  Fixpoint bicgstab_loop (rhat : list F) (bn : F) (k step : nat) (rn : F) (s : bstate) : nd (list F * nat * F) :=
    match k with
    | 0 => nret (bs_x s, step, rn)
    | S k' =>
        ndo (s, rho) := bicgstab_step rhat s in
        ndo rr := vdot (bs_r s) (bs_r s) in
        let rn := ssqrt rr in
        if slt (rn / bn)%s tol then nret (bs_x s, step, rn) else
        bicgstab_loop rhat bn k' (step + 1) rn
          (BS (bs_omega s) rho (bs_alpha s) (bs_r s) (bs_p s) (bs_v s) (bs_y s) (bs_z s) (bs_t s) (bs_x s))
    end.
  (** 172-178: the squared norm of the right-hand side, and rhat := r *)
  Definition rhs_loop (rhs r rhat : list F) : nd (F * list F) :=
    reduce_shared s0 sadd 0 N (fun iel bn rhat =>
      let! b := get rhs iel in
      let bn := (bn + b * b)%s in
      let! ri := get r iel in
      let! rhat := set rhat iel ri in
      Ok (bn, rhat)) s0 rhat.
  (** [hundred]: the constant 100.0 of 142 *)
  Definition bicgstab (hundred : F) (rhs xsol : list F) : nd (list F * SolveInfo F) :=
    let zeros := replicate N s0 in
    ndo r := Agemv3 m1 xsol s1 rhs zeros in
    ndo (bb, rhat) := rhs_loop rhs r zeros in
    let bn := ssqrt bb in
    ndo (xsol, step, rn) := bicgstab_loop rhat bn maxiter 0 hundred
      (BS s1 s1 s1 r zeros zeros zeros zeros zeros xsol) in
    nret (xsol, Info false (step + 1) rn bn).

  (** ** tests/solvers.cpp:252-352 GCR::solve *)
  Variable nrestart : nat.
  Record gstate := GS { gx : list F; gres : list F; gz : list F; gbeta : list F; gp : list (list F); gq : list (list F) }.
  (** 326-330, one value of l *)
  Definition gcr_orth (bl : F) (pl ql pn qn : list F) : nd (list F * list F) :=
    par_for 0 N (fun i '(pn, qn) =>
      let! a := get pn i in let! b := get pl i in let! pn := set pn i (a + bl * b)%s in
      let! c := get qn i in let! d := get ql i in let! qn := set qn i (c + bl * d)%s in
      Ok (pn, qn)) (pn, qn).
  (** 315-331: the next direction *)
  Definition gcr_next (k : nat) (s : gstate) : nd gstate :=
    let '(GS x res z beta p q) := s in
    ndo z := prec res z in
    ndo qn := nlift (get q (k + 1)) in
    ndo qn := Aapply z qn in
    ndo pn := nlift (get p (k + 1)) in
    ndo pn := vecassign z pn in
    ndo beta := nfor 0 (k + 1) (fun i beta =>
      ndo qi := nlift (get q i) in
      ndo a := vdot qn qi in
      ndo c := vdot qi qi in
      nlift (set beta i (sopp a / c)%s)) beta in
    ndo (pn, qn) := nfor 0 (k + 1) (fun l '(pn, qn) =>
      ndo bl := nlift (get beta l) in
      ndo pl := nlift (get p l) in
      ndo ql := nlift (get q l) in
      gcr_orth bl pl ql pn qn) (pn, qn) in
    ndo p := nlift (set p (k + 1) pn) in
    ndo q := nlift (set q (k + 1) qn) in
    nret (GS x res z beta p q).
  (** 293-298: x and the residual along direction k *)
  Definition gcr_update (k : nat) (s : gstate) : nd gstate :=
    let '(GS x res z beta p q) := s in
    ndo qk := nlift (get q k) in
    ndo a := vdot res qk in
    ndo c := vdot qk qk in
    let alpha := (a / c)%s in
    ndo pk := nlift (get p k) in
    ndo x := axpby s1 x alpha pk in
    ndo res := axpby s1 res (sopp alpha) qk in
    nret (GS x res z beta p q).
  (** 291-332: the loop over k; [n] is nrestart - k. Result: the state, step, resnorm *)
  Fixpoint gcr_inner (bn : F) (n k step : nat) (rn : F) (s : gstate) : nd (gstate * nat * F) :=
    match n with
    | 0 => nret (s, step, rn)
    | S n' =>
        ndo s := gcr_update k s in
        ndo rr := vdot (gres s) (gres s) in
        let rn := ssqrt rr in
        let step := step + 1 in
        if slt (rn / bn)%s tol then nret (s, step, rn) else
        if k =? nrestart - 1 then nret (s, step, rn) else
        if maxiter <=? step then nret (s, step, rn) else
        ndo s := gcr_next k s in
        gcr_inner bn n' (k + 1) step rn s
    end.
  (** 284-289: residual and first direction *)
  Definition gcr_start (b : list F) (s : gstate) : nd gstate :=
    let '(GS x res z beta p q) := s in
    ndo res := Agemv3 m1 x s1 b res in
    ndo p0 := nlift (get p 0) in
    ndo p0 := prec res p0 in
    ndo p := nlift (set p 0 p0) in
    ndo q0 := nlift (get q 0) in
    ndo q0 := Aapply p0 q0 in
    ndo q := nlift (set q 0 q0) in
    nret (GS x res z beta p q).
  (** 281-337; [fuel] bounds the number of restarts, which is at most maxiter *)
  Fixpoint gcr_loop (b : list F) (bn : F) (fuel step : nat) (rn : F) (s : gstate) : nd (list F * nat * F) :=
    if negb (step <? maxiter) then nret (gx s, step, rn) else
    match fuel with
    | 0 => nlift Fuel
    | S fuel' =>
        ndo s := gcr_start b s in
        ndo rr := vdot (gres s) (gres s) in
        ndo (s, step, rn) := gcr_inner bn nrestart 0 step rr s in
        if slt (rn / bn)%s tol then nret (gx s, step, rn) else gcr_loop b bn fuel' step rn s
    end.
  Definition gcr (b x : list F) : nd (list F * SolveInfo F) :=
    let zeros := replicate N s0 in
    ndo bb := vdot b b in
    let bn := ssqrt bb in
    ndo (x, step, rn) := gcr_loop b bn maxiter 0 s1
      (GS x zeros zeros (replicate (nrestart + 1) s0) (replicate nrestart zeros) (replicate nrestart zeros)) in
    nret (x, Info (sle (rn / bn)%s tol) step rn bn).
End Solvers.
