(** The tree that belongs to a list of parse events, as a relation between lists of nodes and
    events. *)
From Verif Require Import Prelude RuleModel RuleSpec PtModel PtSpec PtActModel.
Close Scope N_scope.

(** A token is appended.  Empty tokens of some kinds are left out, an error token directly after
    an error token extends that one. *)
Definition with_token (k : tkind) (b e : nat) (ts : list ptree) : list ptree :=
  if ignore_if_empty k && (b =? e) then ts
  else
    match k, rev ts with
    | KError, TTok KError b0 _ :: r => rev r ++ [TTok KError b0 e]
    | _, _ => ts ++ [TTok k b e]
    end.

(** A production without nodes gets a position token. *)
Definition nonempty (b : nat) (ts : list ptree) : list ptree :=
  match ts with [] => [TTok KPosition b b] | _ => ts end.

(** [grows infos ts es ts' n]: a list of siblings [ts] becomes [ts'] by the events [es].
    A finished production becomes a node with the nodes of its own events as children; if it is
    transparent its nodes are added to those of its parent.  A cancelled production becomes an
    error token; the nodes of a cancelled transparent production remain.
    [n]: how many nodes were below the children of a cancelled production. *)
Inductive grows (infos : nat -> info) : list ptree -> list event -> list ptree -> nat -> Prop :=
| grow_nil ts : grows infos ts [] ts 0
| grow_token ts k b e es ts' n :
    grows infos (with_token k b e ts) es ts' n -> grows infos ts (EToken k b e :: es) ts' n
| grow_other ts e es ts' n :
    match e with EToken _ _ _ | EPStart _ _ | EPFinish _ _ | EPCancel _ _ => False | _ => True end ->
    grows infos ts es ts' n -> grows infos ts (e :: es) ts' n
| grow_finish ts q b r es kids n es' ts' n' :
    i_transparent (infos q) = false -> grows infos [] es kids n ->
    grows infos (ts ++ [TProd (i_id (infos q)) (i_token (infos q)) (nonempty b kids)]) es' ts' n' ->
    grows infos ts (EPStart q b :: es ++ EPFinish q r :: es') ts' (n + n')
| grow_finish_transparent ts q b r es ts1 n es' ts' n' :
    i_transparent (infos q) = true -> grows infos ts es ts1 n ->
    grows infos (nonempty b ts1) es' ts' n' ->
    grows infos ts (EPStart q b :: es ++ EPFinish q r :: es') ts' (n + n')
| grow_cancel ts q b r es kids n es' ts' n' :
    i_transparent (infos q) = false -> grows infos [] es kids n ->
    grows infos (with_token KError b r ts) es' ts' n' ->
    grows infos ts (EPStart q b :: es ++ EPCancel q r :: es') ts' (below kids + n + n')
| grow_cancel_transparent ts q b r es ts1 n es' ts' n' :
    i_transparent (infos q) = true -> grows infos ts es ts1 n ->
    grows infos (with_token KError b r ts1) es' ts' n' ->
    grows infos ts (EPStart q b :: es ++ EPCancel q r :: es') ts' (n + n').

(** No transparent production is cancelled after it consumed input; [stk]: where the active
    productions began. *)
Fixpoint harmless (infos : nat -> info) (es : list event) (stk : list nat) : bool :=
  match es with
  | [] => true
  | EPStart _ b :: es => harmless infos es (b :: stk)
  | EPFinish _ _ :: es => harmless infos es (tl stk)
  | EPCancel q r :: es =>
      (negb (i_transparent (infos q)) || (hd 0 stk =? r)) && harmless infos es (tl stk)
  | _ :: es => harmless infos es stk
  end.

(** Only one grammar is parsed, i.e. there is no dsl::subgrammar. *)
Definition one_grammar (es : list event) : bool :=
  forallb (fun e => match e with EGStart _ | EGFinish _ | EGCancel _ => false | _ => true end) es.

(** [made cap tr t b e]: the tree object [tr] was made by calls on a builder that mean [t], or by
    a successful parse_as_tree whose events mean [t]; [b], [e]: the remaining input. *)
Inductive made (cap : nat) : tree -> ptree -> nat -> nat -> Prop :=
| made_builder old root cs b e t tr :
    wf_old old -> b <= e ->
    spec_tree root cs = Some t ->
    careful_calls cs (Frame (Some (i_id root, i_token root)) [], []) = true ->
    build cap old root cs b e = Some tr ->
    made cap tr t b e
| made_parse old inp prods transparent n p vs s k es kids lo tr :
    wf_old (p_buf old) ->
    action inp prods n p = Res (OTrue vs) s k ->
    rev (trace s) = [EGStart 0; EPStart p 0] ++ es ++ [EPFinish p (pos s); EGFinish (pos s)] ->
    one_grammar es = true ->
    grows (info_of prods transparent) [] es kids lo ->
    parse_as_tree cap inp prods transparent n p old = Some (OTrue vs, tr) ->
    made cap tr (TProd p (p_token (prods p)) kids) (pos s) (length inp).
