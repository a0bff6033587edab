(** * ArrayView: array views over a heap (include/arrayview.hpp, include/srmatrixdefs.hpp,
    src/rawsrmatrixutils.cpp)

    The heap is a list of blocks; block number [b] holds [Some contents] while it is
    allocated and [None] once it has been freed. Numbers are not used again. A pointer is null
    or points to position [o] of block [b]. Alignment, the asserts and the sizes in bytes are not modelled. *)
From Verif Require Import Base SRMatrix Nd.

Notation heap T := (list (option (list T))) (only parsing).
Definition ptr : Type := option (nat * nat).

Section Heap.
  Context {T : Type}.
  Implicit Types (h : heap T) (p : ptr).
  (** boost::alignment::aligned_free: nothing for null; undefined unless the pointer is the start
      of an allocated block *)
  Definition hfree h p : res (heap T) :=
    match p with
    | None => Ok h
    | Some (b, o) =>
        match h !! b with
        | Some (Some _) => if o =? 0 then Ok (<[b := None]> h) else UB
        | _ => UB
        end
    end.
  (** boost::alignment::aligned_alloc of [n] elements. [g]: the unknown contents, [None] if the allocation fails *)
  Definition halloc h (g : option (nat -> T)) (n : nat) : ptr * heap T :=
    match g with
    | Some g => (Some (length h, 0), h ++ [Some (g <$> seq 0 n)])
    | None => (None, h)
    end.
  (** reading and writing [p[i]] *)
  Definition hread h p (i : nat) : res T :=
    match p with
    | Some (b, o) => match h !! b with Some (Some l) => get l (o + i) | _ => UB end
    | None => UB
    end.
  Definition hwrite h p (i : nat) (a : T) : res (heap T) :=
    match p with
    | Some (b, o) => match h !! b with
                     | Some (Some l) => let! l := set l (o + i) a in Ok (<[b := Some l]> h)
                     | _ => UB end
    | None => UB
    end.
End Heap.

(** include/arrayview.hpp:139-142 *)
Record view := View { data : ptr; len : nat; owner : bool }.

(** include/arrayview.hpp:36 *)
Definition view_null : view := View None 0 false.
(** include/arrayview.hpp:40-44 *)
Definition view_alloc {T} (h : heap T) (g : option (nat -> T)) (n : nat) : view * heap T :=
  let '(p, h) := halloc h g n in (View p n true, h).
(** include/arrayview.hpp:47-50 *)
Definition view_wrap (p : ptr) (n : nat) : view := View p n false.
(** include/arrayview.hpp:53-59 *)
Definition view_wrap_own (p : ptr) (n : nat) (make_owner : bool) : view := View p n make_owner.
(** include/arrayview.hpp:62-68: the new view and the source afterwards *)
Definition view_move (other : view) : view * view := (View (data other) (len other) (owner other), View None 0 false).
(** include/arrayview.hpp:71-82 *)
Definition view_destroy {T} (h : heap T) (v : view) : res (heap T) :=
  if owner v then hfree h (data v) else Ok h.
(** include/arrayview.hpp:88-98 *)
Definition view_resize {T} (h : heap T) (v : view) (g : option (nat -> T)) (n : nat) : res (view * heap T) :=
  let! h := if owner v then hfree h (data v) else Ok h in
  let '(p, h) := halloc h g n in Ok (View p n true, h).
(** include/arrayview.hpp:101-110 *)
Definition view_rewrap {T} (h : heap T) (v : view) (p : ptr) (n : nat) : res (view * heap T) :=
  let! h := if owner v then hfree h (data v) else Ok h in
  Ok (View p n false, h).
(** include/arrayview.hpp:115-124 *)
Definition view_take_control {T} (h : heap T) (v : view) (p : ptr) (n : nat) : res (view * heap T) :=
  let! h := if owner v then hfree h (data v) else Ok h in
  Ok (View p n true, h).
(** include/arrayview.hpp:146-156: the returned view and the source afterwards. [elided]:
    whether the compiler constructs the local [out] in the place of the result; otherwise
    the result is moved from [out], which is then destroyed. *)
Definition view_move_to_const {T} (elided : bool) (h : heap T) (array : view) : res (view * view * heap T) :=
  let out := view_wrap_own (data array) (len array) (owner array) in
  let array := View None 0 false in
  if elided then Ok (out, array, h) else
    let '(r, out) := view_move out in
    let! h := view_destroy h out in
    Ok (r, array, h).

(** ** A client program working with views *)
(** Views and blocks are numbered in the order of their creation. *)
Inductive op (T : Type) :=
| Null                                            (* ArrayView()                       *)
| Alloc (n : nat) (g : option (nat -> T))         (* ArrayView(n)                      *)
| Wrap (p : ptr) (n : nat)                        (* ArrayView(p, n)                   *)
| WrapOwn (p : ptr) (n : nat) (own : bool)        (* ArrayView(p, n, own)              *)
| Move (v : nat)                                  (* ArrayView(std::move(v))           *)
| MoveConst (v : nat) (elided : bool)             (* move_to_const(std::move(v))       *)
| Resize (v n : nat) (g : option (nat -> T))      (* v.resize(n)                       *)
| Rewrap (v : nat) (p : ptr) (n : nat)            (* v.wrap(p, n)                      *)
| Take (v : nat) (p : ptr) (n : nat)              (* v.take_control(p, n)              *)
| Destroy (v : nat)                               (* end of the life of v              *)
| ClientAlloc (l : list T)                        (* the client allocates a block      *)
| ClientFree (b : nat).                           (* the client frees block b          *)
Arguments Null {T}. Arguments Alloc {T}. Arguments Wrap {T}. Arguments WrapOwn {T}. Arguments Move {T}.
Arguments MoveConst {T}. Arguments Resize {T}. Arguments Rewrap {T}. Arguments Take {T}. Arguments Destroy {T}.
Arguments ClientAlloc {T}. Arguments ClientFree {T}.

(** heap, and the views: [None] once destroyed *)
Record mem (T : Type) := Mem { hp : heap T; views : list (option view) }.
Arguments Mem {T}. Arguments hp {T}. Arguments views {T}.

Definition getv {T} (m : mem T) (v : nat) : res view :=
  match views m !! v with Some (Some x) => Ok x | _ => UB end.
Definition vstep {T} (m : mem T) (o : op T) : res (mem T) :=
  let h := hp m in
  let vs := views m in
  match o with
  | Null => Ok (Mem h (vs ++ [Some view_null]))
  | Alloc n g => let '(x, h) := view_alloc h g n in Ok (Mem h (vs ++ [Some x]))
  | Wrap p n => Ok (Mem h (vs ++ [Some (view_wrap p n)]))
  | WrapOwn p n own => Ok (Mem h (vs ++ [Some (view_wrap_own p n own)]))
  | Move v => let! x := getv m v in
              let '(y, x) := view_move x in Ok (Mem h (<[v := Some x]> vs ++ [Some y]))
  | MoveConst v elided => let! x := getv m v in
              let! (y, x, h) := view_move_to_const elided h x in Ok (Mem h (<[v := Some x]> vs ++ [Some y]))
  | Resize v n g => let! x := getv m v in
              let! (x, h) := view_resize h x g n in Ok (Mem h (<[v := Some x]> vs))
  | Rewrap v p n => let! x := getv m v in
              let! (x, h) := view_rewrap h x p n in Ok (Mem h (<[v := Some x]> vs))
  | Take v p n => let! x := getv m v in
              let! (x, h) := view_take_control h x p n in Ok (Mem h (<[v := Some x]> vs))
  | Destroy v => let! x := getv m v in
              let! h := view_destroy h x in Ok (Mem h (<[v := None]> vs))
  | ClientAlloc l => Ok (Mem (h ++ [Some l]) vs)
  | ClientFree b => let! h := hfree h (Some (b, 0)) in Ok (Mem h vs)
  end.
Fixpoint vrun {T} (m : mem T) (ops : list (op T)) : res (mem T) :=
  match ops with [] => Ok m | o :: ops => let! m := vstep m o in vrun m ops end.

(** ** Matrix storage *)
(** include/srmatrixdefs.hpp:50-57 SRMatrixStorage. The index views point into a heap of
    indices, the values into a heap of scalars. *)
Record stor := Stor { s_browptr : view; s_bcolind : view; s_vals : view; s_diagind : view; s_browendptr : view;
  s_nbrows : nat; s_nnzb : nat; s_nbstored : nat }.
(** src/rawsrmatrixutils.cpp:29-31 *)
Definition stor_null : stor := Stor view_null view_null view_null view_null view_null 0 0 0.
(** src/rawsrmatrixutils.cpp:33-42 *)
Definition stor_wrap (brptrs bcinds values diag_inds brendptrs : ptr) (n_brows n_nzb n_bstored bs : nat) : stor :=
  Stor (view_wrap brptrs (n_brows + 1)) (view_wrap bcinds n_bstored) (view_wrap values (n_bstored * bs * bs))
    (view_wrap diag_inds n_brows) (view_wrap brendptrs n_brows) n_brows n_nzb n_bstored.
(** src/rawsrmatrixutils.cpp:44-55: the new storage and the five source views afterwards *)
Definition stor_of_views (brptrs bcinds values diaginds brendptrs : view) (n_brows n_nzb n_bstored : nat)
    : stor * (view * view * view * view * view) :=
  let '(a, a') := view_move brptrs in
  let '(b, b') := view_move bcinds in
  let '(c, c') := view_move values in
  let '(d, d') := view_move diaginds in
  let '(e, e') := view_move brendptrs in
  (Stor a b c d e n_brows n_nzb n_bstored, (a', b', c', d', e')).
(** src/rawsrmatrixutils.cpp:57-63: the new storage and the source afterwards *)
Definition stor_move (other : stor) : stor * stor :=
  let '(m, (a, b, c, d, e)) := stor_of_views (s_browptr other) (s_bcolind other) (s_vals other) (s_diagind other)
      (s_browendptr other) (s_nbrows other) (s_nnzb other) (s_nbstored other) in
  (m, Stor a b c d e (s_nbrows other) (s_nnzb other) (s_nbstored other)).
(** The implicit destructor: members are destroyed in the reverse of the order of declaration *)
Definition stor_destroy {F} (hi : heap nat) (hf : heap F) (s : stor) : res (heap nat * heap F) :=
  let! hi := view_destroy hi (s_browendptr s) in
  let! hi := view_destroy hi (s_diagind s) in
  let! hf := view_destroy hf (s_vals s) in
  let! hi := view_destroy hi (s_bcolind s) in
  let! hi := view_destroy hi (s_browptr s) in
  Ok (hi, hf).
(** src/rawsrmatrixutils.cpp:65-80: result, source afterwards, heaps. [elided] as for
    [view_move_to_const], for the five array calls; the temporaries they return are empty when destroyed. *)
Definition stor_move_to_const {F} (elided : bool) (hi : heap nat) (hf : heap F) (smat : stor)
    : res (stor * stor * heap nat * heap F) :=
  let! (a, a', hi) := view_move_to_const elided hi (s_browptr smat) in
  let! (b, b', hi) := view_move_to_const elided hi (s_bcolind smat) in
  let! (c, c', hf) := view_move_to_const elided hf (s_vals smat) in
  let! (d, d', hi) := view_move_to_const elided hi (s_diagind smat) in
  let! (e, e', hi) := view_move_to_const elided hi (s_browendptr smat) in
  let '(cm, (a, b, c, d, e)) := stor_of_views a b c d e (s_nbrows smat) (s_nnzb smat) (s_nbstored smat) in
  let! (hi, hf) := stor_destroy hi hf (Stor a b c d e 0 0 0) in
  Ok (cm, Stor a' b' c' d' e' 0 0 0, hi, hf).
(** src/rawsrmatrixutils.cpp:88-96. [&v[0]] is the pointer of the view. *)
Definition stor_share_with_const (smat : stor) (bs : nat) : stor :=
  stor_wrap (data (s_browptr smat)) (data (s_bcolind smat)) (data (s_vals smat)) (data (s_diagind smat))
    (data (s_browendptr smat)) (s_nbrows smat) (s_nnzb smat) (s_nbstored smat) bs.

(** ** Raw matrices *)
(** include/srmatrixdefs.hpp:98-125, 132-159 CRawBSRMatrix, RawBSRMatrix *)
Record raw := Raw { r_browptr : ptr; r_bcolind : ptr; r_vals : ptr; r_diagind : ptr; r_browendptr : ptr;
  r_nbrows : nat; r_nnzb : nat; r_nbstored : nat }.
Section Raw.
  Context {F : Type}.
  (** [&p[i]] *)
  Definition padd (p : ptr) (i : nat) : ptr := match p with Some (b, o) => Some (b, o + i) | None => None end.
  (** src/rawsrmatrixutils.cpp:120-148, copyRawBSRMatrix up to the row ends: the four new arrays. [g1], [g2], [g4]: unknown
      contents of the new index blocks, [g3]: of the new value block; the allocations succeed. *)
  Definition copyRaw_arrays (bs : nat) (g1 g2 g4 : nat -> nat) (g3 : nat -> F) (hi : heap nat) (hf : heap F) (mat : raw)
      : nd (ptr * ptr * ptr * ptr * heap nat * heap F) :=
    let n := r_nbrows mat in
    let '(browptr, hi) := halloc hi (Some g1) (n + 1) in
    ndo n1 := nlift (hread hi (r_browptr mat) n) in
    let '(bcolind, hi) := halloc hi (Some g2) n1 in
    let '(vals, hf) := halloc hf (Some g3) (n1 * bs * bs) in
    let '(diagind, hi) := halloc hi (Some g4) n in
    (* 134-140 *)
    ndo (hi, hf) := par_for 0 (r_nbstored mat) (fun i '(hi, hf) =>
      let! c := hread hi (r_bcolind mat) i in
      let! hi := hwrite hi bcolind i c in
      let! hf := for_ 0 (bs * bs) (fun j hf =>
        let! a := hread hf (r_vals mat) (i * (bs * bs) + j) in
        hwrite hf vals (i * (bs * bs) + j) a) hf in
      Ok (hi, hf)) (hi, hf) in
    (* 142-144 *)
    ndo hi := par_for 0 (n + 1) (fun i hi =>
      let! a := hread hi (r_browptr mat) i in hwrite hi browptr i a) hi in
    (* 146-148 *)
    ndo hi := par_for 0 n (fun i hi =>
      let! a := hread hi (r_diagind mat) i in hwrite hi diagind i a) hi in
    nret (browptr, bcolind, vals, diagind, hi, hf).
  (** src/rawsrmatrixutils.cpp:120-159 copyRawBSRMatrix. For no rows the row ends keep the null of the default constructor. *)
  Definition copyRaw (bs : nat) (g1 g2 g4 : nat -> nat) (g3 : nat -> F) (hi : heap nat) (hf : heap F) (mat : raw)
      : nd (raw * heap nat * heap F) :=
    ndo (browptr, bcolind, vals, diagind, hi, hf) := copyRaw_arrays bs g1 g2 g4 g3 hi hf mat in
    match r_browendptr mat with
    | Some _ => nret (Raw browptr bcolind vals diagind (if 0 <? r_nbrows mat then padd browptr 1 else None)
                        (r_nbrows mat) (r_nnzb mat) (r_nbstored mat), hi, hf)
    | None => nlift (Throw "CRawBSRMatrix does not have row end pointers!")
    end.
  (** src/rawsrmatrixutils.cpp:165-174 alignedDestroyRawBSRMatrix *)
  Definition destroyRaw (hi : heap nat) (hf : heap F) (rmat : raw) : res (heap nat * heap F) :=
    let! hi := hfree hi (r_browptr rmat) in
    let! hi := hfree hi (r_bcolind rmat) in
    let! hi := hfree hi (r_diagind rmat) in
    let! hf := hfree hf (r_vals rmat) in
    let! hi := if negb (r_nnzb rmat =? r_nbstored rmat) then hfree hi (r_browendptr rmat) else Ok hi in
    Ok (hi, hf).
End Raw.
