(** Statements that call no declared procedure. *)
From Coq Require Import List String.
From Verif.Model Require Import Syntax Procs.
Import ListNotations.

Definition calls_none (procs : string -> option proc) (st : stmt) : Prop :=
  match st with
  | SVar _ (Some (ECall _ f _)) | SAssign _ (ECall _ f _) => procs f = None
  | _ => True
  end.
