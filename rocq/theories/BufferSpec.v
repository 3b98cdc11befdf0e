(** Specification of buffers: variables that hold a list of units, without any
    memory.  And the value of a group of bytes. *)
From Verif Require Import Prelude BufferModel.
Open Scope N_scope.

Definition vars := nat -> option (nat * list N).   (* resource and contents *)

(** What each operation does to the contents; [None]: the operation is not a
    legal use (constructing into an existing variable, using one that does not
    exist). *)
Definition spec_step (v : vars) (o : op) : option vars :=
  match o with
  | ODefault r res => match v r with None => Some (upd v r (Some (res, []))) | _ => None end
  | ORange r res l | OBuilder r res l =>
    match v r with None => Some (upd v r (Some (res, l))) | _ => None end
  | OCopy r src =>
    match v r, v src with None, Some (res, l) => Some (upd v r (Some (res, l))) | _, _ => None end
  | OCopyRes r src res =>
    match v r, v src with None, Some (_, l) => Some (upd v r (Some (res, l))) | _, _ => None end
  | OMove r src =>
    match v r, v src with
    | None, Some (res, l) => Some (upd (upd v r (Some (res, l))) src (Some (res, [])))
    | _, _ => None
    end
  | OAssignCopy dst src =>
    match v dst, v src with
    | Some (res, _), Some (_, l) => Some (upd v dst (Some (res, l)))
    | _, _ => None
    end
  | OAssignMove dst src =>
    (* the target gets the source's contents; with equal resources the source is
       left with the target's old contents, otherwise it is unchanged *)
    match v dst, v src with
    | Some (rd, ld), Some (rs, ls) =>
      if (rd =? rs)%nat then Some (upd (upd v dst (Some (rd, ls))) src (Some (rs, ld)))
      else Some (upd v dst (Some (rd, ls)))
    | _, _ => None
    end
  | ORelease r t =>
    match v r, v t with
    | Some (res, l), None => Some (upd (upd v t (Some (res, l))) r (Some (res, [])))
    | _, _ => None
    end
  | OAdopt r t =>
    match v r, v t with
    | None, Some x => Some (upd (upd v r (Some x)) t None)
    | _, _ => None
    end
  | ODestroy r => match v r with Some _ => Some (upd v r None) | None => None end
  end.

Fixpoint spec_run (v : vars) (os : list op) : option vars :=
  match os with
  | [] => Some v
  | o :: os' => match spec_step v o with None => None | Some v' => spec_run v' os' end
  end.

(** ** Bytes *)
Definition be_value (bs : list N) : N := fold_left (fun acc b => acc * 256 + b) bs 0.
Definition le_value (bs : list N) : N := be_value (rev bs).

(** [units] are the values of the consecutive groups of [width] bytes. *)
Inductive decodes (value : list N -> N) (width : nat) : list N -> list N -> Prop :=
  | dec_nil : decodes value width [] []
  | dec_cons g rest units : length g = width -> decodes value width rest units ->
      decodes value width (g ++ rest) (value g :: units).
