(** * Async: OpenMP parallel regions over one shared array

    Code inside a parallel region is a program [P A] whose accesses to the one
    array that the region modifies are explicit micro-steps ([Rd], [Wr]); all
    other data is read-only there and is accessed by ordinary model code
    ([plift]).

    The machine [step] models what the OpenMP regions of
    src/async_ilu_factor.cpp:153-177, src/async_blockilu_factor.cpp:186-204,
    src/solverops_ilu0.cpp:89-141,267-313, src/solverops_sgs.cpp,
    src/relaxation_chaotic.cpp and src/solverops_levels_*.cpp do:
    - [#pragma omp for schedule(dynamic, chunk) nowait] over several sweeps hands
      out chunks of consecutive iterations, sweep after sweep, to whichever
      thread asks next: a shared queue of chunks;
    - a thread runs the iterations of its chunk in order, one access at a time;
    - threads interleave arbitrarily: the schedule is an arbitrary list of
      (thread, pick);
    - a read returns any value that the location has had since the region began
      ([pick] snapshots back, 0 = the current value). This covers the stale
      values that unsynchronised C++ accesses may see.
    Simplification: single [double] accesses are indivisible; formally a C++
    data race is undefined behaviour, the library relies on the hardware here. *)
From Verif Require Export Base.

Section Prog.
  Context {V : Type}.

  Inductive P (A : Type) : Type :=
  | Ret (a : A)
  | Rd (l : nat) (k : V -> P A)     (* read location l *)
  | Wr (l : nat) (v : V) (k : P A)  (* write location l *)
  | Bad.                            (* undefined behaviour *)
  Global Arguments Ret {A} a. Global Arguments Rd {A} l k.
  Global Arguments Wr {A} l v k. Global Arguments Bad {A}.

  Fixpoint pbind {A B} (p : P A) (f : A -> P B) : P B :=
    match p with
    | Ret a => f a
    | Rd l k => Rd l (fun v => pbind (k v) f)
    | Wr l v k => Wr l v (pbind k f)
    | Bad => Bad
    end.
  Definition plift {A} (m : res A) : P A :=
    match m with Ok a => Ret a | _ => Bad end.
  Fixpoint pfor_n {St} (n i : nat) (body : nat -> St -> P St) (s : St) : P St :=
    match n with
    | 0 => Ret s
    | S n' => pbind (body i s) (fun s' => pfor_n n' (i + 1) body s')
    end.
  Definition pfor {St} (lo hi : nat) (body : nat -> St -> P St) (s : St) : P St :=
    pfor_n (hi - lo) lo body s.
  Definition pread (l : nat) : P V := Rd l Ret.
  Definition pwrite (l : nat) (v : V) : P unit := Wr l v (Ret tt).

  (** ** Running a program alone on a memory *)
  Fixpoint exec {A} (m : list V) (p : P A) : res (A * list V) :=
    match p with
    | Ret a => Ok (a, m)
    | Rd l k => let! v := get m l in exec m (k v)
    | Wr l v k => let! m' := set m l v in exec m' k
    | Bad => UB
    end.

  (** Tasks [T r] for [r] in the list, one after the other. *)
  Fixpoint exec_seq (T : nat -> P unit) (rs : list nat) (m : list V) : res (list V) :=
    match rs with
    | [] => Ok m
    | r :: rs' => let! (_, m') := exec m (T r) in exec_seq T rs' m'
    end.
  Fixpoint iter_res {A} (n : nat) (f : A -> res A) (a : A) : res A :=
    match n with 0 => Ok a | S n' => let! a' := f a in iter_res n' f a' end.

  (** ** The machine *)
  Inductive tstate := Idle | Busy (p : P unit) (rest : list nat).
  Record mach := Mach {
    mq : list (list nat);   (* chunks not yet handed out, in order *)
    mt : list tstate;       (* the threads *)
    mcur : list V;          (* current contents of the shared array *)
    mold : list (list V)    (* earlier contents since the region began, latest first *)
  }.
  Definition next_task (T : nat -> P unit) (rs : list nat) : tstate :=
    match rs with [] => Idle | r :: rs' => Busy (T r) rs' end.
  Definition step (T : nat -> P unit) (tp : nat * nat) (s : mach) : res mach :=
    let '(t, pick) := tp in
    match mt s !! t with
    | None => Ok s
    | Some Idle =>
        match mq s with
        | [] => Ok s
        | c :: q => Ok (Mach q (<[t := next_task T c]> (mt s)) (mcur s) (mold s))
        end
    | Some (Busy (Ret _) rs) =>
        Ok (Mach (mq s) (<[t := next_task T rs]> (mt s)) (mcur s) (mold s))
    | Some (Busy (Rd l k) rs) =>
        let! v := get (default (mcur s) ((mcur s :: mold s) !! pick)) l in
        Ok (Mach (mq s) (<[t := Busy (k v) rs]> (mt s)) (mcur s) (mold s))
    | Some (Busy (Wr l v k) rs) =>
        let! m' := set (mcur s) l v in
        Ok (Mach (mq s) (<[t := Busy k rs]> (mt s)) m' (mcur s :: mold s))
    | Some (Busy Bad _) => UB
    end.
  Fixpoint run (T : nat -> P unit) (sched : list (nat * nat)) (s : mach) : res mach :=
    match sched with
    | [] => Ok s
    | x :: sched' => let! s' := step T x s in run T sched' s'
    end.
  Definition minit (nthr : nat) (q : list (list nat)) (m : list V) : mach :=
    Mach q (replicate nthr Idle) m [].
  Definition mdone (s : mach) : Prop := mq s = [] /\ Forall (eq Idle) (mt s).

  (** [region T nthr q m m']: some schedule executes the region to its end
      (where OpenMP's implicit barrier is) and leaves the array [m']. *)
  Definition region (T : nat -> P unit) (nthr : nat) (q : list (list nat)) (m m' : list V) : Prop :=
    exists sched s', run T sched (minit nthr q m) = Ok s' /\ mdone s' /\ mcur s' = m'.
  (** no schedule reaches undefined behaviour *)
  Definition region_safe (T : nat -> P unit) (nthr : nat) (q : list (list nat)) (m : list V) : Prop :=
    forall sched, exists s', run T sched (minit nthr q m) = Ok s'.

  (** The chunks that [schedule(dynamic, c)] makes of a list of iterations. *)
  Fixpoint chunks_fuel (n c : nat) (l : list nat) : list (list nat) :=
    match n with
    | 0 => []
    | S n' => match l with [] => [] | _ => take c l :: chunks_fuel n' c (drop c l) end
    end.
  Definition chunks (c : nat) (l : list nat) : list (list nat) := chunks_fuel (length l) c l.
  (** [n] sweeps with [nowait] between them: one queue. *)
  Definition nowait_sweeps (n c : nat) (order : list nat) : list (list nat) :=
    concat (replicate n (chunks c order)).
End Prog.

Global Notation "'let?' x := m 'in' k" := (pbind m (fun x => k))
  (at level 200, x pattern, m at level 100, k at level 200, right associativity).
