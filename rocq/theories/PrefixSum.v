(** * PrefixSum: src/utils/prefix_sum.cpp *)
From Verif Require Import Base Nd.
From Coq Require Import ZArith.
Open Scope nat_scope.

(** [static_cast<int>(std::ceil(std::log(T)))], line 55: the least L with T <= e^L, with 2.718
    in place of e. (For 1 <= T <= 1095 this is the same number: no integer lies
    between the powers of the two up to the seventh.) *)
Fixpoint ceil_log_from (fuel L T : nat) : nat :=
  match fuel with
  | 0 => L
  | S fuel => if (Z.of_nat T * 1000 ^ Z.of_nat L <=? 2718 ^ Z.of_nat L)%Z then L else ceil_log_from fuel (L + 1) T
  end.
Definition ceil_log (T : nat) : nat := ceil_log_from T 0 T.

(** src/utils/prefix_sum.cpp:20-73 prefix_sum, on an array with [length counts] entries
    (num_entries), [T] threads (the team has the maximal size), [levels] the number
    computed at line 55.
    - 34-40: each thread reads its first entry before the barrier;
    - 42-50: a thread reads and writes only entries behind its first, up to and including
      that of the next thread, so the threads' parts commute: they are run one after the
      other in any order;
    - 57-71: the tasks of a level are run in any order. A task reads and writes no entry written by
      another task of its level. *)
Definition prefix_sum (T levels : nat) (counts : list Z) : nd (list Z) :=
  let n := length counts in
  if n <=? 1 then nlift (if 0 <? n then set counts 0 0%Z else Ok counts) else
  let w := (n - 1) / T + 1 in
  ndo startvals := nlift (mapr (fun t => get counts (t * w)) (seq 0 T)) in
  ndo counts := par_for 0 T (fun t counts =>
    let startidx := t * w in
    let endidx := Nat.min n ((t + 1) * w) in
    let! startval := get startvals t in
    let! (counts, partial) := for_ (startidx + 1) endidx (fun i '(counts, partial) =>
      let! nnz := get counts i in
      let! counts := set counts i partial in
      Ok (counts, (partial + nnz)%Z)) (counts, startval) in
    if t =? T - 1 then Ok counts else set counts endidx partial) counts in
  ndo counts := nlift (set counts 0 0%Z) in
  nfor 0 levels (fun ilvl counts =>
    let factor := 2 ^ (ilvl + 1) in
    let lw := factor * w in
    let ntasks := (T - 1) / factor + 1 in
    par_for 0 ntasks (fun k counts =>
      let startidx := Nat.min n (lw / 2 + k * lw + 1) in
      let endidx := Nat.min n ((k + 1) * lw + 1) in
      let! baseval := get counts (startidx - 1) in
      for_ startidx endidx (fun i counts => let! c := get counts i in set counts i (c + baseval)%Z) counts) counts) counts.
