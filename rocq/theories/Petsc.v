(** * Petsc: the PETSc interface (src/blasted_petsc.cpp, include/blasted_petsc.h)

    PETSc itself is not modelled: the options database is a record of the values set in it, a solver is the tree of its
    sub-solvers, a shell preconditioner is a number, and calls of PETSc succeed. Output on the screen and the DEBUG parts are left out.
    Memory is three lists of objects, addressed by position; a freed object is [None], and so is the null pointer. *)
From Coq Require Import ZArith.
From Verif Require Import Base Alg SRMatrix IluApply IluFactor Factory.
Local Open Scope string_scope.

(** How a function ends: return code 0, a PETSc error code, an exception, undefined behaviour. Unlike in [res], the state which the
    function leaves behind is kept. *)
Inductive status := Fine | PetscErr (msg : string) | Exn (msg : string) | Undefined.
(** run a part that throws or returns without changing the state *)
Definition status_of {A} (m : res A) : status := match m with Ok _ => Fine | Throw e => Exn e | UB | Fuel => Undefined end.

(** include/solvertypes.h:29 *)
Definition SEQ : Z := (-1)%Z.
Local Notation "a '==' b" := (bool_decide (a = b)) (at level 70).

(** src/blasted_petsc.cpp:88-133 setSweeps_checkSeq: from the type and the two counts of the context to those of the settings *)
Definition setSweeps_checkSeq (t : ptype) (nbuild napply : Z) : res (ptype * Z * Z) :=
  if t == SEQILU0 then Ok (t, nbuild, napply) else
  if ((napply == SEQ) && (nbuild == SEQ)) || ((napply == SEQ) && (t == SFILU0)) || ((nbuild == SEQ) && (t == SAPILU0)) then Ok (SEQILU0, 1%Z, 1%Z) else
  let! (t, na) :=
    (if napply == SEQ then
       if negb (t == ILU0) && negb (t == SAPILU0) then Throw " Seq. appl. only supported with async ILU factorization!"
       else Ok (SAPILU0, 1%Z)
     else Ok (t, napply)) in
  let! (t, nb) :=
    (if nbuild == SEQ then
       if negb (t == ILU0) && negb (t == SFILU0) then Throw " Seq. fact. only supported with async triangular application!"
       else Ok (SFILU0, 1%Z)
     else Ok (t, nbuild)) in
  Ok (t, nb, na).

(** The options database: the values set by the user, [None] if not set *)
Record options := Options {
  o_type : option string; o_sweeps : option (list Z); o_scaling : option bool; o_finit : option string; o_ainit : option string;
  o_chunk : option Z; o_info : option bool }.
(** include/blasted_petsc.h:24 BLASTED_OPT_STRLEN: strings of the database are cut to 19 characters *)
Definition trunc (s : string) : string := substring 0 19 s.

Section Petsc.
  (** [F]: times; [I]: the diagnostics computed by a preconditioner *)
  Context {F : Type} {O : SOps F} {I : Type}.

  (** include/blasted_petsc.h:31-64 Blasted_node. [cputime] and [walltime], which nothing reads, are left out. *)
  Record ctx := Ctx {
    c_bprec : option prec; c_factory : option nat; c_bs : Z; c_prectypestr : string; c_prectype : ptype;
    c_scale : bool; c_chunk : Z; c_nbuild : Z; c_napply : Z; c_finit : string; c_ainit : string; c_info : bool; c_infolist : option nat;
    c_first : bool; c_fcpu : F; c_fwall : F; c_acpu : F; c_awall : F; c_next : option nat }.
  (** FactoryBase objects: the library's SRFactory, or one derived by the user, which is given by what it does *)
  Inductive factory := Default | User (types : string -> res ptype) (create : settings -> res (option prec)).
  Definition f_types (f : factory) := match f with Default => solverTypeFromString | User t _ => t end.
  Definition f_create (f : factory) := match f with Default => create_preconditioner | User _ c => c end.
  Record mem := Mem { m_nodes : list (option ctx); m_infos : list (option (list I)); m_facts : list (option factory) }.
  (** delete *)
  Definition free {A} (l : list (option A)) (p : option nat) : res (list (option A)) :=
    match p with
    | None => Ok l
    | Some a => match l !! a with Some (Some _) => Ok (<[a := None]> l) | _ => UB end
    end.
  Definition deref {A} (l : list (option A)) (p : option nat) : res A :=
    match p with Some a => match l !! a with Some (Some x) => Ok x | _ => UB end | None => UB end.

  (** ** Setting up one preconditioner *)
  (** src/blasted_petsc.cpp:136-208 setupDataFromOptions; lines 31-85 are the functions reading options *)
  Definition setupDataFromOptions (fs : list (option factory)) (o : options) (c : ctx) : ctx * status :=
    match deref fs (c_factory c) with
    | Ok factory =>
      match o_type o with
      | None => (c, Exn "abort")
      | Some s =>
        let prectypestr := trunc s in
        let c1 := Ctx (c_bprec c) (c_factory c) (c_bs c) prectypestr (c_prectype c) (c_scale c) (c_chunk c) (c_nbuild c) (c_napply c)
                    (c_finit c) (c_ainit c) (c_info c) (c_infolist c) (c_first c) (c_fcpu c) (c_fwall c) (c_acpu c) (c_awall c) (c_next c) in
        match f_types factory prectypestr with
        | Ok ptype =>
          let async :=
            if negb (ptype == JACOBI) && negb (ptype == LEVEL_SGS) && negb (ptype == NO_PREC) then
              let! (nb, na) := match o_sweeps o with Some (x :: y :: _) => Ok (x, y) | _ => Throw "abort" end in
              let! (scale, finit) :=
                (if (ptype == ILU0) || (ptype == SAPILU0) || (ptype == ASYNC_LEVEL_ILU0) then
                   let! b := match o_scaling o with Some b => Ok b | None => Throw "Bool option not set!" end in
                   let! f := match o_finit o with Some f => Ok (trunc f) | None => Throw "abort" end in
                   Ok (b, f)
                 else Ok (false, "NA")) in
              let! ainit := match o_ainit o with Some a => Ok (trunc a) | None => Throw "abort" end in
              let! chunk := match o_chunk o with Some k => Ok k | None => Throw "abort" end in
              Ok (nb, na, scale, chunk, finit, ainit)
            else Ok (1%Z, 1%Z, c_scale c, c_chunk c, c_finit c, c_ainit c) in
          match async with
          | Ok (nb, na, scale, chunk, finit, ainit) =>
            (Ctx None (c_factory c) (c_bs c) prectypestr ptype scale chunk nb na finit ainit (default false (o_info o)) (c_infolist c)
               true s0 s0 s0 s0 (c_next c), Fine)
          | m => (c1, status_of m)
          end
        | m => (c1, status_of m)
        end
      end
    | m => (c, status_of m)
    end.

  (** src/blasted_petsc.cpp:253-275 the settings. [gf], [ga], [gc]: the values which the members not set have *)
  Definition petsc_settings (f : factory) (gf : FactInit) (ga : ApplyInit) (c : ctx) : res settings :=
    let! t := f_types f (c_prectypestr c) in
    let! (t, nb, na) := setSweeps_checkSeq t (c_nbuild c) (c_napply c) in
    let! (fi, ai) :=
      (if negb (t == JACOBI) && negb (t == LEVEL_SGS) && negb (t == NO_PREC) then
         let! fi := (if (t == ILU0) || (t == SAPILU0) || (t == ASYNC_LEVEL_ILU0) then getFactInitFromString (c_finit c) else Ok INIT_F_NONE) in
         let! ai := getApplyInitFromString (c_ainit c) in
         Ok (fi, ai)
       else Ok (gf, ga)) in
    Ok (Settings t (c_bs c) (Layout ColMajor) (c_chunk c) (c_scale c) nb na fi ai (c_info c)).

  (** src/blasted_petsc.cpp:216-311 createNewPreconditioner. [diagmissing]: the matrix has a row without diagonal entry, 240-247.
      Deleting the old object, 226-227, does nothing since setupDataFromOptions has set the pointer to null. *)
  Definition createNewPreconditioner (gf : FactInit) (ga : ApplyInit) (diagmissing : bool) (m : mem) (c : ctx) : mem * ctx * status :=
    if diagmissing then (m, c, PetscErr "! Zero diagonal in (block-)row!") else
    match deref (m_facts m) (c_factory c) with
    | Ok factory =>
      match petsc_settings factory gf ga c with
      | Ok settings =>
        if (c_bs c <=? 0)%Z || (5 <? c_bs c)%Z || (c_bs c =? 2)%Z then (m, c, PetscErr "BLASTed: Block size is not supported!") else
        match f_create factory settings with
        | Ok precop =>
          let '(infos, infolist) :=
            if c_info c then ((m_infos m ++ [Some []])%list, Some (length (m_infos m))) else (m_infos m, None) in
          (Mem (m_nodes m) infos (m_facts m),
           Ctx precop (c_factory c) (c_bs c) (c_prectypestr c) (c_prectype c) (c_scale c) (c_chunk c) (c_nbuild c) (c_napply c)
             (c_finit c) (c_ainit c) (c_info c) infolist (c_first c) (c_fcpu c) (c_fwall c) (c_acpu c) (c_awall c) (c_next c), Fine)
        | r => (m, c, status_of r)
        end
      | r => (m, c, status_of r)
      end
    | r => (m, c, status_of r)
    end.

  (** src/blasted_petsc.cpp:314-327 updatePreconditioner. [info]: what compute() returns *)
  Definition updatePreconditioner (info : I) (m : mem) (c : ctx) : mem * status :=
    match c_bprec c with
    | None => (m, Undefined)
    | Some _ =>
      if c_info c then
        match deref (m_infos m) (c_infolist c), c_infolist c with
        | Ok l, Some a => (Mem (m_nodes m) (<[a := Some (l ++ [info])%list]> (m_infos m)) (m_facts m), Fine)
        | _, _ => (m, Undefined)
        end
      else (m, Fine)
    end.

  (** src/blasted_petsc.cpp:403-430 compute_preconditioner_blasted, the set-up function of the shell. [dcpu], [dwall]: the time compute() takes *)
  Definition compute_preconditioner_blasted (gf : FactInit) (ga : ApplyInit) (diagmissing : bool) (o : options) (info : I) (dcpu dwall : F)
      (m : mem) (c : ctx) : mem * ctx * status :=
    let '(m, c, s) :=
      if c_first c then (m, c, Fine) else
      match setupDataFromOptions (m_facts m) o c with
      | (c, Fine) => createNewPreconditioner gf ga diagmissing m c
      | (c, s) => (m, c, s)
      end in
    match s with
    | Fine =>
      match updatePreconditioner info m c with
      | (m, Fine) =>
        (m, Ctx (c_bprec c) (c_factory c) (c_bs c) (c_prectypestr c) (c_prectype c) (c_scale c) (c_chunk c) (c_nbuild c) (c_napply c)
              (c_finit c) (c_ainit c) (c_info c) (c_infolist c) (c_first c) (c_fcpu c + dcpu)%s (c_fwall c + dwall)%s (c_acpu c) (c_awall c) (c_next c), Fine)
      | (m, s) => (m, c, s)
      end
    | s => (m, c, s)
    end.

  (** ** The list of contexts *)
  (** include/blasted_petsc.h:72-85 Blasted_data_list *)
  Record dlist := DList {
    d_ctxlist : option nat; d_size : Z; d_factory : option nat; d_default : bool;
    d_fcpu : F; d_fwall : F; d_acpu : F; d_awall : F }.
  (** src/blasted_petsc.cpp:331-340 *)
  Definition newBlastedDataList : dlist := DList None 0 None false s0 s0 s0 s0.
  (** src/blasted_petsc.cpp:368-378; [g]: the contents of the members not set *)
  Definition newBlastedDataContext (g : ctx) : ctx :=
    Ctx None (c_factory g) (c_bs g) (c_prectypestr g) (c_prectype g) (c_scale g) (c_chunk g) (c_nbuild g) (c_napply g)
      (c_finit g) (c_ainit g) (c_info g) None false s0 s0 s0 s0 None.
  Definition set_next (c : ctx) (next : option nat) : ctx :=
    Ctx (c_bprec c) (c_factory c) (c_bs c) (c_prectypestr c) (c_prectype c) (c_scale c) (c_chunk c) (c_nbuild c) (c_napply c)
      (c_finit c) (c_ainit c) (c_info c) (c_infolist c) (c_first c) (c_fcpu c) (c_fwall c) (c_acpu c) (c_awall c) next.
  (** src/blasted_petsc.cpp:380-389 *)
  Definition appendBlastedDataContext (m : mem) (d : dlist) (bd : ctx) : mem * dlist :=
    (Mem (m_nodes m ++ [Some (set_next bd (d_ctxlist d))])%list (m_infos m) (m_facts m),
     DList (Some (length (m_nodes m))) (d_size d + 1) (d_factory d) (d_default d) (d_fcpu d) (d_fwall d) (d_acpu d) (d_awall d)).
  (** src/blasted_petsc.cpp:349-362: the loop; [n] bounds the number of its rounds *)
  Fixpoint destroy_loop (n : nat) (m : mem) (ctxlist : option nat) (size : Z) : res (mem * Z) :=
    match ctxlist with
    | None => Ok (m, size)
    | Some temp =>
      match n with
      | 0 => Fuel
      | S n =>
        let! c := deref (m_nodes m) (Some temp) in
        let! infos := free (m_infos m) (c_infolist c) in
        let! nodes := free (m_nodes m) (Some temp) in
        destroy_loop n (Mem nodes infos (m_facts m)) (c_next c) (size - 1)
      end
    end.
  (** src/blasted_petsc.cpp:342-366 *)
  Definition destroyBlastedDataList (m : mem) (b : dlist) : res (mem * dlist) :=
    let! facts := if d_default b then free (m_facts m) (d_factory b) else Ok (m_facts m) in
    let! (m, size) := destroy_loop (length (m_nodes m)) (Mem (m_nodes m) (m_infos m) facts) (d_ctxlist b) (d_size b) in
    if Z.eqb size 0 then Ok (m, DList None size (d_factory b) false (d_fcpu b) (d_fwall b) (d_acpu b) (d_awall b))
    else Throw "Could not delete Blasted_data_list properly!".
  (** src/blasted_petsc.cpp:728-734: the loop of computeTotalTimes *)
  Fixpoint total_loop (n : nat) (nodes : list (option ctx)) (node : option nat) (t : F * F * F * F) : res (F * F * F * F) :=
    match node with
    | None => Ok t
    | Some _ =>
      match n with
      | 0 => Fuel
      | S n =>
        let! c := deref nodes node in
        let '(fcpu, fwall, acpu, awall) := t in
        total_loop n nodes (c_next c) ((fcpu + c_fcpu c)%s, (fwall + c_fwall c)%s, (acpu + c_acpu c)%s, (awall + c_awall c)%s)
      end
    end.
  (** src/blasted_petsc.cpp:723-735 *)
  Definition computeTotalTimes (m : mem) (b : dlist) : res dlist :=
    let! (fcpu, fwall, acpu, awall) := total_loop (length (m_nodes m)) (m_nodes m) (d_ctxlist b) (s0, s0, s0, s0) in
    Ok (DList (d_ctxlist b) (d_size b) (d_factory b) (d_default b) fcpu fwall acpu awall).

  (** ** Solver stacks *)
  (** A KSP by the type of its PC: PCSHELL, number [id], with a matrix local to the process or not, of a block format or not and with
      a block size; PCBJACOBI or PCASM with the solvers of the local subdomains; PCMG or PCGAMG with a coarse solver and the smoothers
      of the levels from 1; PCKSP; any other *)
  Inductive solver :=
  | KShell (id : nat) (local block : bool) (matbs : Z)
  | KDomains (subs : list solver)
  | KMultigrid (coarse : solver) (smoothers : list solver)
  | KInner (sub : solver)
  | KOther.
  (** what PETSc's shells know: (shell, context it was given, with the relaxation function registered or not) *)
  Record world := World { w_mem : mem; w_list : dlist; w_shells : list (nat * nat * bool) }.

  (** src/blasted_petsc.cpp:663-721 setup_localpreconditioner_blasted, for the context at address [a] *)
  Definition setup_localpreconditioner_blasted (id : nat) (local block : bool) (matbs : Z) (a : nat) (w : world) : world * status :=
    match deref (m_nodes (w_mem w)) (Some a) with
    | Ok c =>
      if negb local then (w, PetscErr "PC as PCSHELL is only supported for local solvers.") else
      let c' := Ctx (c_bprec c) (c_factory c) (if block then matbs else 1%Z) (c_prectypestr c) (c_prectype c) (c_scale c) (c_chunk c) (c_nbuild c) (c_napply c)
                  (c_finit c) (c_ainit c) (c_info c) (c_infolist c) false (c_fcpu c) (c_fwall c) (c_acpu c) (c_awall c) (c_next c) in
      let relax := negb (c_prectype c' == ILU0) && negb (c_prectype c' == CSC_BGS) && negb (c_prectype c' == NO_PREC) in
      (World (Mem (<[a := Some c']> (m_nodes (w_mem w))) (m_infos (w_mem w)) (m_facts (w_mem w))) (w_list w) (w_shells w ++ [(id, a, relax)])%list, Fine)
    | _ => (w, Undefined)
    end.
  Definition set_factory (c : ctx) (f : option nat) : ctx :=
    Ctx (c_bprec c) f (c_bs c) (c_prectypestr c) (c_prectype c) (c_scale c) (c_chunk c) (c_nbuild c) (c_napply c)
      (c_finit c) (c_ainit c) (c_info c) (c_infolist c) (c_first c) (c_fcpu c) (c_fwall c) (c_acpu c) (c_awall c) (c_next c).
  (** src/blasted_petsc.cpp:655-661 setup_blasted_stack, up to the call of setup_blasted_stack_ext: a new default factory *)
  Definition new_default (w : world) : world :=
    let m := w_mem w in let d := w_list w in
    World (Mem (m_nodes m) (m_infos m) (m_facts m ++ [Some Default])%list)
      (DList (d_ctxlist d) (d_size d) (Some (length (m_facts m))) true (d_fcpu d) (d_fwall d) (d_acpu d) (d_awall d)) (w_shells w).
  (** calls one after the other, until one does not return 0 *)
  Fixpoint in_turn (fs : list (world -> world * status)) (w : world) : world * status :=
    match fs with
    | [] => (w, Fine)
    | f :: fs => match f w with (w, Fine) => in_turn fs w | r => r end
    end.
  (** src/blasted_petsc.cpp:578-653 setup_blasted_stack_ext. [fctry] is passed by the caller; [g]: what is in the memory where context
      number n is made. The calls of setup_blasted_stack, 608, 619, 629 and 636, are [new_default] and a call of this function. *)
  Fixpoint setup_blasted_stack_ext (g : nat -> ctx) (ksp : solver) (fctry : option nat) (w : world) {struct ksp} : world * status :=
    let nested k := fun w => setup_blasted_stack_ext g k (d_factory (w_list (new_default w))) (new_default w) in
    match ksp with
    | KDomains subs =>
      match subs with
      | [k] => nested k w
      | _ => (w, PetscErr "Only one subdomain per rank is supported.")
      end
    | KMultigrid coarse smoothers => in_turn (map nested smoothers ++ [nested coarse])%list w
    | KInner k => nested k w
    | KShell id local block matbs =>
      let a := length (m_nodes (w_mem w)) in
      let '(m, d) := appendBlastedDataContext (w_mem w) (w_list w) (newBlastedDataContext (g a)) in
      match d_ctxlist d with
      | None => (w, Undefined)
      | Some a =>
        match m_nodes m !! a with
        | Some (Some c) =>
          setup_localpreconditioner_blasted id local block matbs a
            (World (Mem (<[a := Some (set_factory c (d_factory d))]> (m_nodes m)) (m_infos m) (m_facts m)) d (w_shells w))
        | _ => (w, Undefined)
        end
      end
    | KOther => (w, Fine)
    end.
  (** src/blasted_petsc.cpp:655-661 *)
  Definition setup_blasted_stack (g : nat -> ctx) (ksp : solver) (w : world) : world * status :=
    let w := new_default w in setup_blasted_stack_ext g ksp (d_factory (w_list w)) w.
End Petsc.
