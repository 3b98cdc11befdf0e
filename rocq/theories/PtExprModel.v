(** Expressions in parse trees: what the handler of parse_as_tree calls on the tree builder for the
    events of an expression production.

    Source: include/lexy/action/parse_as_tree.hpp:88-112.

    The events are those of ExprModel.v; what the atom rule and the rules of operators raise is given
    as builder calls. *)
From Verif Require Import Prelude RuleModel PtModel ExprModel.
Close Scope N_scope.

Section Calls.
(** The token kind of an operator's literal; the production_info of an operation; the calls for
    the events of the atom and of what belongs to an operator behind its literal, by range. *)
Variable op_kind : nat -> nat -> tkind.
Variable op_info : nat -> info.
Variable atom_calls : nat -> nat -> list call.
Variable rest_calls : nat -> nat -> list call.

Definition calls_on (e : ev) : list call :=
  match e with
  | EStart _ => [COpen]                              (* l.88-93 *)
  | EOp id _ => [CSet (op_info id)]                  (* l.94-100 *)
  | EFinish _ => [CClose]                            (* l.101-106 *)
  | EToken id idx b e => [CToken (op_kind id idx) b e]  (* l.108-112 *)
  | ERest b e | ERestError b e => rest_calls b e
  | EAtom b e | EAtomError b e => atom_calls b e
  | ENesting _ _ | EChain _ _ | EGroup _ _ => []     (* l.114-118 *)
  end.
Definition expr_calls (l : list ev) : list call := flat_map calls_on l.
End Calls.
