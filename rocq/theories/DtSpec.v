(** What a description of a parse tree means. *)
From Coq Require Import String Ascii.
From Verif Require Import Prelude CodecModel LitModel RuleModel PtModel PtSpec VisModel DtModel.
Close Scope string_scope.
Open Scope N_scope.

(** A tree as the user thinks of it: names of productions and token kinds, and the characters of
    the tokens. *)
Inductive dtree := DLeaf (kind spelling : list N) | DNode (name : list N) (kids : list dtree).

(** How it is described. *)
Fixpoint calls_of (d : dtree) : list call :=
  match d with
  | DLeaf k s => [CToken k s]
  | DNode n kids => CProduction n :: flat_map calls_of kids ++ [CFinish]
  end.

(** The same for a parse tree over an input. *)
Fixpoint described (token_name : tkind -> list N) (production_name : nat -> list N) (inp : list N) (t : ptree) : dtree :=
  match t with
  | TTok k b e => DLeaf (token_name k) (firstn (e - b) (skipn b inp))
  | TProd id _ kids => DNode (production_name id) (map (described token_name production_name inp) kids)
  end.

(** Names have no line breaks and no quotes. *)
Definition good_name (n : list N) : Prop := ~ In 0x0A n /\ ~ In 0x22 n.
(** Characters whose spelling is unambiguous: not the backslash, not 0xFF, and not
    negative. *)
Definition good_char (signed : bool) (c : N) : Prop :=
  c <> 0x5C /\ c < (if signed then 0x80 else 0xFF).
Fixpoint good (signed : bool) (d : dtree) : Prop :=
  match d with
  | DLeaf k s => good_name k /\ Forall (good_char signed) s
  | DNode n kids =>
    good_name n /\ (fix all l := match l with [] => True | x :: l' => good signed x /\ all l' end) kids
  end.
