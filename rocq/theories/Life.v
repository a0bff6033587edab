(** * Life: histories of calls through PETSc, with the lifetimes of contexts, diagnostics and preconditioners
    (src/blasted_petsc.cpp, include/blasted_petsc.h)

    The functions of [Petsc] are combined to whole programs: several lists of contexts, several solver stacks, and what PETSc does
    with its shells: it calls the functions registered for them (set up, apply or relax, destroy). Of a preconditioner object only
    its existence is modelled here; [Factory] has what it is. *)
From Coq Require Import ZArith.
From Verif Require Import Base Alg SRMatrix IluApply IluFactor Factory Petsc.
Local Open Scope string_scope.

Section Life.
  Context {F : Type} {O : SOps F} {I : Type}.
  Local Notation ctx := (@ctx F). Local Notation mem := (@mem F I). Local Notation dlist := (@dlist F). Local Notation world := (@world F I).

  (** The state of a program.
      - [l_objs]: preconditioner objects, [Some tt] while they exist; [l_ptr]: the value of the pointer [bprec] of the context at each
        address (include/blasted_petsc.h:33). [c_bprec] says which kind of object it pointed to when it was last assigned.
      - [l_shells]: PETSc's shells not yet destroyed: number, context, relaxation registered or not; the last entry counts.
      - [l_done]: PETSc's own record (pc->setupcalled) of the shells set up successfully.
      - [l_failed]: the shells whose last set-up did not return 0. This is not in any memory; the rules below speak of it. *)
  Record life := Life {
    l_mem : mem; l_lists : list dlist; l_shells : list (nat * nat * bool); l_ptr : list (option nat); l_objs : list (option unit);
    l_done : list nat; l_failed : list nat }.
  Definition life_start : life := Life (Mem [] [] []) [] [] [] [] [] [].
  (** the context which PCShellGetContext yields *)
  Definition context_of (id : nat) (L : life) : option nat :=
    match last (filter (fun s => s.1.1 = id) (l_shells L)) with Some s => Some s.1.2 | None => None end.
  Definition without (id : nat) (l : list nat) : list nat := filter (fun j => j <> id) l.
  (** the object at [p] exists *)
  Definition alive (objs : list (option unit)) (p : option nat) : bool := match deref objs p with Ok _ => true | _ => false end.

  (** What a program does. [Configure k ksp g]: setup_blasted_stack for solver [ksp] and list [k], [g] as there. [SetUp id …]: PETSc sets up
      shell [id]: src/blasted_petsc.cpp:403-430. [Apply id]: PETSc applies it or relaxes with it, 474-576. [Close id]: PETSc destroys it,
      391-401. *)
  Inductive op :=
  | NewList
  | Configure (k : nat) (ksp : solver) (g : nat -> ctx)
  | SetUp (id : nat) (gf : FactInit) (ga : ApplyInit) (diagmissing : bool) (o : options) (info : I) (dcpu dwall : F)
  | Apply (id : nat) (dcpu dwall : F)
  | Close (id : nat)
  | Totals (k : nat)
  | Destroy (k : nat).

  (** src/blasted_petsc.cpp:655-661. New contexts have null pointers, 371. *)
  Definition life_configure (k : nat) (ksp : solver) (g : nat -> ctx) (L : life) : res (life * status) :=
    let! d := get (l_lists L) k in
    match setup_blasted_stack g ksp (World (l_mem L) d (l_shells L)) with
    | (w, Undefined) => UB
    | (w, s) =>
      Ok (Life (w_mem w) (<[k := w_list w]> (l_lists L)) (w_shells w)
            (l_ptr L ++ replicate (length (m_nodes (w_mem w)) - length (l_ptr L)) None)%list (l_objs L) (l_done L) (l_failed L), s)
    end.
  (** src/blasted_petsc.cpp:403-430 with the pointer: setupDataFromOptions makes it null, 195; createNewPreconditioner deletes what it points to,
      226-227, and makes it point to a new object, 297; updatePreconditioner calls a function of the object, 321 *)
  Definition life_setup (id : nat) (gf : FactInit) (ga : ApplyInit) (diagmissing : bool) (o : options) (info : I) (dcpu dwall : F) (L : life)
      : res (life * status) :=
    match context_of id L with
    | None => Ok (L, PetscErr "shell without functions")
    | Some a =>
      let! c := deref (m_nodes (l_mem L)) (Some a) in
      let! p := get (l_ptr L) a in
      let '(m', c', s) := compute_preconditioner_blasted gf ga diagmissing o info dcpu dwall (l_mem L) c in
      let! (objs, p) :=
        (if c_first c then Ok (l_objs L, p) else
         match setupDataFromOptions (m_facts (l_mem L)) o c with
         | (_, Fine) =>
           let p := None in
           let! objs := free (l_objs L) p in
           match c_bprec c' with
           | Some _ => Ok ((objs ++ [Some tt])%list, Some (length objs))
           | None => Ok (objs, p)
           end
         | _ => Ok (l_objs L, p)
         end) in
      match s with
      | Undefined => UB
      | _ =>
        let L' done failed := Life (Mem (<[a := Some c']> (m_nodes m')) (m_infos m') (m_facts m')) (l_lists L) (l_shells L) (<[a := p]> (l_ptr L)) objs done failed in
        match s with
        | Fine => if alive objs p then Ok (L' (id :: l_done L) (without id (l_failed L)), Fine) else UB
        | s => Ok (L' (l_done L) (id :: l_failed L), s)
        end
      end
    end.
  (** src/blasted_petsc.cpp:474-576 apply_local_blasted and relax_local_blasted: the context is read, a function of the object called, the
      time noted in the context. PETSc sets up a shell before it applies it for the first time; that is a [SetUp] in the history, and
      without one nothing is done. *)
  Definition spend (c : ctx) (dcpu dwall : F) : ctx :=
    Ctx (c_bprec c) (c_factory c) (c_bs c) (c_prectypestr c) (c_prectype c) (c_scale c) (c_chunk c) (c_nbuild c) (c_napply c)
      (c_finit c) (c_ainit c) (c_info c) (c_infolist c) (c_first c) (c_fcpu c) (c_fwall c) (c_acpu c + dcpu)%s (c_awall c + dwall)%s (c_next c).
  Definition life_apply (id : nat) (dcpu dwall : F) (L : life) : res (life * status) :=
    match context_of id L with
    | None => Ok (L, PetscErr "shell without functions")
    | Some a =>
      if bool_decide (id ∈ l_done L) then
        let! c := deref (m_nodes (l_mem L)) (Some a) in
        let! p := get (l_ptr L) a in
        if alive (l_objs L) p then
          Ok (Life (Mem (<[a := Some (spend c dcpu dwall)]> (m_nodes (l_mem L))) (m_infos (l_mem L)) (m_facts (l_mem L))) (l_lists L) (l_shells L)
                (l_ptr L) (l_objs L) (l_done L) (l_failed L), Fine)
        else UB
      else Ok (L, PetscErr "not set up")
    end.
  (** src/blasted_petsc.cpp:391-401 cleanup_blasted, called when PETSc destroys the shell: the context is read, the object deleted. The pointer
      keeps its value. *)
  Definition life_close (id : nat) (L : life) : res (life * status) :=
    match context_of id L with
    | None => Ok (L, Fine)
    | Some a =>
      let! c := deref (m_nodes (l_mem L)) (Some a) in
      let! p := get (l_ptr L) a in
      let! objs := free (l_objs L) p in
      Ok (Life (l_mem L) (l_lists L) (filter (fun s => s.1.1 <> id) (l_shells L)) (l_ptr L) objs (without id (l_done L)) (without id (l_failed L)), Fine)
    end.
  (** src/blasted_petsc.cpp:723-735 *)
  Definition life_totals (k : nat) (L : life) : res (life * status) :=
    let! d := get (l_lists L) k in
    let! d := computeTotalTimes (l_mem L) d in
    Ok (Life (l_mem L) (<[k := d]> (l_lists L)) (l_shells L) (l_ptr L) (l_objs L) (l_done L) (l_failed L), Fine).
  (** src/blasted_petsc.cpp:342-366. Deleting a context does not touch the object it points to. *)
  Definition life_destroy (k : nat) (L : life) : res (life * status) :=
    let! d := get (l_lists L) k in
    let! (m, d) := destroyBlastedDataList (l_mem L) d in
    Ok (Life m (<[k := d]> (l_lists L)) (l_shells L) (l_ptr L) (l_objs L) (l_done L) (l_failed L), Fine).
  (** src/blasted_petsc.cpp:331-340, or one of the above *)
  Definition life_step (x : op) (L : life) : res (life * status) :=
    match x with
    | NewList => Ok (Life (l_mem L) (l_lists L ++ [newBlastedDataList])%list (l_shells L) (l_ptr L) (l_objs L) (l_done L) (l_failed L), Fine)
    | Configure k ksp g => life_configure k ksp g L
    | SetUp id gf ga dm o info dcpu dwall => life_setup id gf ga dm o info dcpu dwall L
    | Apply id dcpu dwall => life_apply id dcpu dwall L
    | Close id => life_close id L
    | Totals k => life_totals k L
    | Destroy k => life_destroy k L
    end.
  (** a history; errors returned do not end it *)
  Fixpoint life_run (xs : list op) (L : life) : res life :=
    match xs with
    | [] => Ok L
    | x :: xs => let! (L, _) := life_step x L in life_run xs L
    end.
End Life.
Arguments life F I : clear implicits.
Arguments op F I : clear implicits.
