(** * PetscError: PETSc's error codes as exceptions (include/utils/cmdoptions.hpp, src/utils/cmdoptions.cpp, include/utils/mpiutils.hpp)

    In PetscIo.v the exceptions have fixed texts; here their types and texts are modelled. *)
From Coq Require Import ZArith.
From Verif Require Import Base.
Open Scope Z_scope.

(** The types of exceptions, include/utils/cmdoptions.hpp:23-36; the last two are derived from the first. *)
Inductive exn := RuntimeError | PetscExn | NotGivenExn.
(** does [catch(const T&)] catch it? *)
Definition caught (T e : exn) : bool :=
  match T, e with RuntimeError, _ => true | PetscExn, PetscExn => true | NotGivenExn, NotGivenExn => true | _, _ => false end.
Inductive outcome (A : Type) := Returns (a : A) | Throws (e : exn) (msg : string).
Arguments Returns {A}. Arguments Throws {A}.

Section Error.
  (** PETSC_ERR_MIN_VALUE and PETSC_ERR_MAX_VALUE *)
  Variables lo hi : Z.
  (** PETSc: PetscErrorMessage, the text of a code and that of the last error; [None]: it returns an error code itself *)
  Variable message : Z -> option (option string * option string).

  (** src/utils/cmdoptions.cpp:17-38 *)
  Definition parsePetscErrorCode (ierr : Z) : outcome string :=
    if ierr <=? lo then Throws RuntimeError "Invalid PETSc error code!"
    else if hi <=? ierr then Throws RuntimeError "Invalid PETSc error code!"
    else match message ierr with
         | None => Throws RuntimeError "Could not get PETSc error message!"
         | Some (None, _) => Throws RuntimeError "PETSc error text is null!"
         | Some (Some text, specific) =>
             Returns (match specific with Some spec => (text ++ " ") ++ spec | None => text end)%string
         end.
  (** include/utils/cmdoptions.hpp:41-44, src/utils/cmdoptions.cpp:40-42: the argument of the exception is computed first *)
  Definition petsc_throw (ierr : Z) : outcome unit :=
    if negb (ierr =? 0) then
      match parsePetscErrorCode ierr with
      | Throws e m => Throws e m
      | Returns m => Throws PetscExn ("PETSc error: " ++ m)
      end
    else Returns tt.
End Error.

(** include/utils/cmdoptions.hpp:47-50, src/utils/cmdoptions.cpp:44-46; [std::to_string] of zero *)
Definition file_input_throw (fstatus : Z) : outcome unit :=
  if fstatus =? 0 then Throws NotGivenExn ("Input not given: " ++ "Error while reading file + " ++ "0") else Returns tt.
(** include/utils/mpiutils.hpp:14-30 get_mpi_size, get_mpi_rank; [call]: the code of the MPI function and the number *)
Definition get_mpi_size (call : Z * Z) : outcome Z :=
  let '(ierr, size) := call in if negb (ierr =? 0) then Throws RuntimeError "Could not get MPI size!" else Returns size.
Definition get_mpi_rank (call : Z * Z) : outcome Z :=
  let '(ierr, rank) := call in if negb (ierr =? 0) then Throws RuntimeError "Could not get MPI rank!" else Returns rank.
