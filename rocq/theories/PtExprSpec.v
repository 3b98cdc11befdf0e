(** Specification: the parse tree nodes of an expression. *)
From Verif Require Import Prelude RuleModel PtModel PtSpec PtExprModel ExprModel.
Close Scope N_scope.

Section Trees.
Variable op_kind : nat -> nat -> tkind.
Variable op_info : nat -> info.
Variable atom_trees : nat -> nat -> list ptree.
Variable rest_trees : nat -> nat -> list ptree.

(** An operator: the token of its literal, and what else belongs to it. *)
Definition op_trees (o : opn) : list ptree :=
  TTok (op_kind (o_id o) (o_idx o)) (o_b o) (o_m o) :: rest_trees (o_m o) (o_e o).
Definition op_node (id : nat) (kids : list ptree) : list ptree :=
  [TProd (i_id (op_info id)) (i_token (op_info id)) kids].

(** One node for every operator applied, its children are the operands and the operator in the
    order of the input; a list of operands is one node. *)
Fixpoint expr_trees (t : ExprModel.tree) : list ptree :=
  match t with
  | Leaf b e => atom_trees b e
  | Pre o t => op_node (o_id o) (op_trees o ++ expr_trees t)
  | Post t o => op_node (o_id o) (expr_trees t ++ op_trees o)
  | Inf l o r => op_node (o_id o) (expr_trees l ++ op_trees o ++ expr_trees r)
  | Lst sp _ => match sp with SMore _ o _ => op_node (o_id o) (spine_trees sp) | SOne _ => spine_trees sp end
  end
with spine_trees (sp : spine) : list ptree :=
  match sp with
  | SOne t => expr_trees t
  | SMore sp o t => spine_trees sp ++ op_trees o ++ expr_trees t
  end.
End Trees.

(** Some calls that, wherever they are made, are allowed and add the nodes [ts]. *)
Definition calls_add (cs : list call) (ts : list ptree) : Prop :=
  forall f st, spec_calls cs (f, st) = Some (add ts f, st) /\ careful_calls cs (f, st) = true.
