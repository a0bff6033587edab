(** * PropPetscError: property C97 (error codes become exceptions) *)
From Coq Require Import ZArith.
From Verif Require Import Base PetscError.
Open Scope Z_scope.

(** C97. No error code is lost: the function returns if and only if the code is 0, whatever PETSc says about it, and what it throws otherwise is caught by a handler
    for std::runtime_error. *)
Theorem C97_never_lost : forall lo hi message ierr,
  (petsc_throw lo hi message ierr = Returns tt <-> ierr = 0) /\
  (ierr <> 0 -> exists e m, petsc_throw lo hi message ierr = Throws e m /\ caught RuntimeError e = true).
Proof.
  intros lo hi message ierr. unfold petsc_throw, parsePetscErrorCode. destruct (Z.eqb_spec ierr 0) as [->|N]; simpl.
  - split; [tauto|]. congruence.
  - split; [split; [|congruence]|]; destruct (ierr <=? lo), (hi <=? ierr), (message ierr) as [[[t|] [s|]]|]; simpl; intros; try discriminate; eauto.
Qed.
(** A code strictly between PETSc's limits for which PETSc has a text: an exception of the class for PETSc errors, with PETSc's text, and that of the last error
    if there is one. *)
Theorem C97_text : forall lo hi message ierr text specific, lo < ierr < hi -> ierr <> 0 -> message ierr = Some (Some text, specific) ->
  petsc_throw lo hi message ierr = Throws PetscExn ("PETSc error: " ++ text ++ match specific with Some s => " " ++ s | None => "" end)%string.
Proof.
  intros lo hi message ierr text specific Hr N E. unfold petsc_throw, parsePetscErrorCode. rewrite (proj2 (Z.eqb_neq ierr 0) N), E. cbn [negb].
  rewrite (proj2 (Z.leb_gt ierr lo)) by lia. rewrite (proj2 (Z.leb_gt hi ierr)) by lia.
  assert (forall s : string, (s ++ "")%string = s) as Hnil by (induction s as [|c s IH]; simpl; congruence).
  assert (forall a b c : string, ((a ++ b) ++ c)%string = (a ++ b ++ c)%string) as Hass by (intros a b c; induction a as [|x a IH]; simpl; congruence).
  destruct specific as [s|]; [rewrite Hass|rewrite Hnil]; reflexivity.
Qed.
(** "A handler for PETSc errors catches every error of PETSc" is false: codes at or beyond the limits, negative ones for instance, are thrown as something else, and
    the text does not depend on the code. *)
Theorem C97_out_of_range_refuted : forall lo hi message ierr, ierr <> 0 -> ierr <= lo \/ hi <= ierr ->
  petsc_throw lo hi message ierr = Throws RuntimeError "Invalid PETSc error code!" /\ caught PetscExn RuntimeError = false.
Proof.
  intros lo hi message ierr N H. split; [|reflexivity]. unfold petsc_throw, parsePetscErrorCode. rewrite (proj2 (Z.eqb_neq ierr 0) N). cbn [negb].
  destruct (Z.leb_spec ierr lo), (Z.leb_spec hi ierr); reflexivity || lia.
Qed.
(** The same for the number of processes, the number of this process and the state of a file. *)
Theorem C97_others : forall ierr x,
  (ierr = 0 -> get_mpi_size (ierr, x) = Returns x /\ get_mpi_rank (ierr, x) = Returns x) /\
  (ierr <> 0 -> (exists m, get_mpi_size (ierr, x) = Throws RuntimeError m) /\ exists m, get_mpi_rank (ierr, x) = Throws RuntimeError m) /\
  (file_input_throw x = Returns tt <-> x <> 0) /\ (x = 0 -> exists m, file_input_throw x = Throws NotGivenExn m).
Proof.
  intros ierr x. unfold get_mpi_size, get_mpi_rank, file_input_throw.
  split; [intros ->; auto|]. split; [intros N; rewrite (proj2 (Z.eqb_neq ierr 0) N); simpl; eauto|].
  destruct (Z.eqb_spec x 0); split; try split; try congruence; eauto.
Qed.

Example C97_case : let message := fun c => if c =? 77 then Some (Some "Petsc has generated inconsistent data"%string, Some "row 3"%string) else None in
  petsc_throw 54 88 message 77 = Throws PetscExn "PETSc error: Petsc has generated inconsistent data row 3" /\
  petsc_throw 54 88 message 54 = Throws RuntimeError "Invalid PETSc error code!" /\ petsc_throw 54 88 message 0 = Returns tt.
Proof. repeat split; reflexivity. Qed.

Print Assumptions C97_never_lost.
Print Assumptions C97_text.
Print Assumptions C97_out_of_range_refuted.
Print Assumptions C97_others.
