(** Parsing a part of an input: what it means that parsing does not depend on where the text is.
    [inside] is that of [HaltSpec]. *)
From Verif Require Import Prelude RuleModel HaltSpec.
Close Scope N_scope.

(** ** Everything that contains positions, moved by [d] *)
Section Move.
Variable d : nat.

Fixpoint move_val (v : val) : val :=
  match v with
  | VLex b e => VLex (d + b) (d + e)
  | VPos p => VPos (d + p)
  | VNull => VNull
  | VBool b => VBool b
  | VInt z => VInt z
  | VProd p vs => VProd p (map move_val vs)
  | VSink items => VSink (map (map move_val) items)
  | VAs vs => VAs (map move_val vs)
  end.

Definition move_event (e : event) : event :=
  match e with
  | EGStart p => EGStart (d + p)
  | EGFinish p => EGFinish (d + p)
  | EGCancel p => EGCancel (d + p)
  | EPStart i p => EPStart i (d + p)
  | EPFinish i p => EPFinish i (d + p)
  | EPCancel i p => EPCancel i (d + p)
  | EToken k b e => EToken k (d + b) (d + e)
  | EBack b e => EBack (d + b) (d + e)
  | EError t b e => EError t (d + b) (d + e)
  | ERStart p => ERStart (d + p)
  | ERFinish p => ERFinish (d + p)
  | ERCancel p => ERCancel (d + p)
  end.

Definition move_var (x : nat * val) : nat * val := (fst x, move_val (snd x)).
Definition move_st (s : st) : st :=
  St (d + pos s) (depth s) (wsf s) (map move_var (vars s)) (map move_event (trace s)).
Definition move_out (o : out) : out :=
  match o with
  | OFalse => OFalse
  | OTrue vs => OTrue (map move_val vs)
  | OItem i vs => OItem i (map move_val vs)
  | OBreak => OBreak
  end.
Definition move_res (r : res) : res :=
  match r with
  | Res o s m => Res (move_out o) (move_st s) m
  | NoFuel => NoFuel
  | Crash => Crash
  end.
End Move.

(** ** Grammars whose tokens only look at the text in front of them *)

(** What a token does at a position does not depend on what is before it. *)
Definition movable_token (t : token) : Prop := forall pre inp p,
  tk_try t (pre ++ inp) (length pre + p)
    = (fst (tk_try t inp p), length pre + snd (tk_try t inp p)) /\
  tk_err t (pre ++ inp) (length pre + p)
    = (fst (fst (tk_err t inp p)), length pre + snd (fst (tk_err t inp p)), length pre + snd (tk_err t inp p)).

Definition movable_finder (f : finder) : Prop := forall pre inp p,
  fd_try f (pre ++ inp) (length pre + p)
    = option_map (fun x => (fst x, length pre + snd x)) (fd_try f inp p).

(** The initial value of a context variable is a number, a flag, or nothing. *)
Definition plain_value (v : val) : Prop :=
  match v with VNull | VBool _ | VInt _ => True | _ => False end.

Definition movable_rule : rule -> Prop := inside (fun r =>
  match r with
  | RTok t | RLstT _ _ _ t | RReco t _ => movable_token t
  | RFind f | RLook f _ => movable_finder f
  | RCtxNew _ v => plain_value v
  | _ => True
  end).

Definition movable (prods : nat -> production) : Prop := forall p,
  movable_rule (p_rule (prods p)) /\ forall w, p_ws (prods p) = Some w -> movable_rule w.
