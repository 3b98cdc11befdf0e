(** Which lists of nodes a rule over nodes matches.
    (docs/content/reference/dsl/parse_tree_node.adoc, docs/content/reference/input/parse_tree_input.adoc) *)
From Verif Require Import Prelude RuleModel PtModel PtSpec NdModel.
Close Scope N_scope.

Definition node_is (d : nkind) (t : ptree) : bool :=
  match d, t with
  | NTok k, TTok k' _ _ => tkind_eqb k' k
  | NProd id, TProd id' _ _ => id' =? id
  | _, _ => false
  end.
Definition next_is (d : nkind) (l : list ptree) : bool := match l with t :: _ => node_is d t | [] => false end.
(** Whether a branch is taken: only the next node is looked at. *)
Definition holds (c : ncond) (l : list ptree) : bool :=
  match c with
  | CNode d => next_is d l
  | CTokIn k _ => next_is (NTok k) l
  | CProdIn id _ => next_is (NProd id) l
  | CEof => match l with [] => true | _ => false end
  | CElse => true
  end.

Definition is_error (e : nev) : bool := match e with NError _ _ _ => true | _ => false end.
Definition no_errors (l : list nev) : Prop := forall e, In e l -> is_error e = false.

Section Match.
Variable prods : nat -> nrule.
Variable lexrule : nat -> nat -> nat -> bool * nat * list nev.

(** A lexeme rule matches a lexeme: it consumes all of it without an error. *)
Definition lexeme_matches (i b e : nat) : Prop :=
  exists d, lexrule i b e = (true, e, d) /\ no_errors d.

(** [takes r l l']: [r] matches the nodes of [l] in front of [l']. *)
Inductive takes : nrule -> list ptree -> list ptree -> Prop :=
| takes_nothing l : takes RNothing l l
| takes_node d t l : node_is d t = true -> takes (RNode d) (t :: l) l
| takes_lexeme k k' i b e l : tkind_eqb k' k = true -> lexeme_matches i b e ->
    takes (RTokIn k i) (TTok k' b e :: l) l
| takes_children id tok kids r l : takes r kids [] -> takes (RProdIn id r) (TProd id tok kids :: l) l
| takes_seq r1 r2 l l1 l2 : takes r1 l l1 -> takes r2 l1 l2 -> takes (RSeq r1 r2) l l2
| takes_choice bs1 c r bs2 l l' : forallb (fun b => negb (holds (fst b) l)) bs1 = true -> holds c l = true ->
    takes (RSeq (cond_rule c) r) l l' -> takes (RChoice (bs1 ++ (c, r) :: bs2)) l l'
| takes_opt c r l l' : holds c l = true -> takes (RSeq (cond_rule c) r) l l' -> takes (ROpt c r) l l'
| takes_no_opt c r l : holds c l = false -> takes (ROpt c r) l l
| takes_while c r l l1 l2 : holds c l = true ->
    takes (RSeq (cond_rule c) r) l l1 -> takes (RWhile c r) l1 l2 -> takes (RWhile c r) l l2
| takes_no_while c r l : holds c l = false -> takes (RWhile c r) l l
| takes_eof : takes REof [] []
| takes_production p l l' : takes (prods p) l l' -> takes (RProd p) l l'.
End Match.

(** A tree without the whitespace nodes below it. *)
Fixpoint strip (ws : option nkind) (t : ptree) : ptree :=
  match t with
  | TTok k b e => TTok k b e
  | TProd id tok kids =>
      TProd id tok (filter (fun t => match ws with Some d => negb (node_is d t) | None => true end) (map (strip ws) kids))
  end.
(** The nodes of a list that are not whitespace. *)
Definition visible (ws : option nkind) (l : list ptree) : list ptree :=
  filter (fun t => match ws with Some d => negb (node_is d t) | None => true end) (map (strip ws) l).
Definition children_of (t : ptree) : list ptree := match t with TTok _ _ _ => [] | TProd _ _ kids => kids end.

(** The tokens among the events. *)
Definition token_of (e : nev) : list (tkind * nat * nat) := match e with NToken k b e => [(k, b, e)] | _ => [] end.
Definition tokens_of (l : list nev) : list (tkind * nat * nat) := flat_map token_of l.

(** Lexeme rules stay in the lexeme, cover it with tokens as far as they get, and report why they fail. *)
Definition lex_ok (lexrule : nat -> nat -> nat -> bool * nat * list nev) : Prop :=
  forall i b e ok q d, b <= e -> lexrule i b e = (ok, q, d) ->
  in_a_row b (tokens_of d) q /\ q <= e /\ (ok = false -> ~ no_errors d).
