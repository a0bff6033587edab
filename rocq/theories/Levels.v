(** * Levels: src/levelschedule.cpp *)
From Verif Require Import Base SRMatrix ColMat.
Open Scope nat_scope.

Section Levels.
  Context {A : Type}.
  Implicit Type M : srmat A.
  (** src/levelschedule.cpp:17-22: the column indices of each row *)
  Definition dependency_lists M : res (list (list nat)) :=
    mapr (fun irow =>
      let! lo := get (browptr M) irow in
      let! hi := get (browptr M) (irow + 1) in
      mapr (fun jj => get (bcolind M) jj) (range lo hi)) (seq 0 (nbrows M)).
  (** 32-34; [k]: rows left (the loop condition [inode < nbrows]). [front] of an empty list is undefined. *)
  Fixpoint independent_run (k : nat) (depends : list (list nat)) (inode : nat) : res nat :=
    match k with
    | 0 => Ok inode
    | S k => let! l := get depends inode in
      match l with
      | [] => UB
      | front :: _ => if inode <=? front then independent_run k depends (inode + 1) else Ok inode
      end
    end.
  (** [std::find] and [erase], 53-60: remove the first occurrence *)
  Fixpoint erase_first (x : nat) (l : list nat) : option (list nat) :=
    match l with
    | [] => None
    | y :: l => if y =? x then Some l else (fun l => y :: l) <$> erase_first x l
    end.
  (** 46-61, for the neighbours [l] of [jnode]. (The list that is run through is not one of
      those that are changed: [nbr <> jnode].) *)
  Definition remove_node (jnode : nat) (l : list nat) (depends : list (list nat)) : res (list (list nat)) :=
    doall l (fun nbr depends =>
      if nbr =? jnode then Ok depends else
      let! d := get depends nbr in
      match erase_first jnode d with
      | None => Throw "Faulty dependency list!"
      | Some d' => set depends nbr d'
      end) depends.
  (** 28-63; [prev] is the last entry of [levels] *)
  Fixpoint level_loop (fuel n : nat) (depends : list (list nat)) (inode prev : nat) (levels : list nat) : res (list nat) :=
    if n <=? inode then Ok levels else
    match fuel with
    | 0 => Fuel
    | S fuel =>
      let! inode := independent_run (n - inode) depends inode in
      let! depends := for_ prev inode (fun jnode depends => let! l := get depends jnode in remove_node jnode l depends) depends in
      level_loop fuel n depends inode inode (levels ++ [inode])
    end.
  (** src/levelschedule.cpp:11-71 computeLevels; [fuel] bounds the number of passes of the outer loop.
      The message printed at 68 and the asserts are not modelled. *)
  Definition computeLevels (fuel : nat) M : res (list nat) :=
    let! depends := dependency_lists M in
    level_loop fuel (nbrows M) depends 0 0 [0].
End Levels.
