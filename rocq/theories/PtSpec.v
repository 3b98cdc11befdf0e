(** What a parse tree is and what the builder's functions mean, without memory.
    (docs/content/reference/parse_tree.adoc:112-223) *)
From Verif Require Import Prelude RuleModel PtModel.
Close Scope N_scope.

Inductive ptree :=
| TTok (k : tkind) (b e : nat)
| TProd (id : nat) (tok : bool) (kids : list ptree).

(** Number of nodes, and the length of the longest path. *)
Fixpoint nodes (t : ptree) : nat :=
  match t with TTok _ _ _ => 1 | TProd _ _ kids => S (list_sum (map nodes kids)) end.
Fixpoint height (t : ptree) : nat :=
  match t with TTok _ _ _ => 0 | TProd _ _ kids => list_max (map (fun t => S (height t)) kids) end.

(** The leaves, in order. *)
Fixpoint leaves (t : ptree) : list (tkind * nat * nat) :=
  match t with TTok k b e => [(k, b, e)] | TProd _ _ kids => flat_map leaves kids end.

(** An active node: a production, or a container; and its children so far. *)
Record frame := Frame { f_prod : option (nat * bool); f_kids : list ptree }.

(** The active node, and the nodes that were active when the unreturned markers were handed out
    ([None]: for a transparent production, no new node was created). *)
Definition state : Type := frame * list (option frame).

Definition add (ts : list ptree) (f : frame) : frame := Frame (f_prod f) (f_kids f ++ ts).

(** A token: empty ones of some kinds are ignored, an error token directly after an error token
    extends that one. *)
Definition spec_token (k : tkind) (b e : nat) (f : frame) : option frame :=
  if ignore_if_empty k && (b =? e) then Some f
  else
    match k, rev (f_kids f) with
    | KError, TTok KError b0 _ :: r =>
        if b0 <=? e then Some (Frame (f_prod f) (rev r ++ [TTok KError b0 e])) else None
    | _, _ => if b <=? e then Some (add [TTok k b e] f) else None
    end.

(** [None]: the call is not allowed. *)
Definition spec_call (c : call) (x : state) : option state :=
  let (f, st) := x in
  match c with
  | CStart p =>
      if i_transparent p then Some (f, None :: st)
      else Some (Frame (Some (i_id p, i_token p)) [], Some f :: st)
  | CFinish =>
      match st, f_prod f with
      | None :: st, _ => Some (f, st)
      | Some g :: st, Some (id, tok) => Some (add [TProd id tok (f_kids f)] g, st)
      | _, _ => None
      end
  | CCancel =>
      match st, f_prod f with
      | None :: st, _ => Some (f, st)
      | Some g :: st, Some _ => Some (g, st)
      | _, _ => None
      end
  | COpen => Some (Frame None [], Some f :: st)
  | CSet p =>
      match f_prod f with
      | Some _ => None
      | None =>
          if i_transparent p then Some (f, st)
          else Some (Frame None [TProd (i_id p) (i_token p) (f_kids f)], st)
      end
  | CClose =>
      match st, f_prod f with
      | Some g :: st, None => Some (add (f_kids f) g, st)
      | _, _ => None
      end
  | CDrop =>
      match st, f_prod f with
      | Some g :: st, None => Some (g, st)
      | _, _ => None
      end
  | CToken k b e =>
      match spec_token k b e f with Some f => Some (f, st) | None => None end
  end.

Fixpoint spec_calls (cs : list call) (x : state) : option state :=
  match cs with
  | [] => Some x
  | c :: cs => match spec_call c x with Some x => spec_calls cs x | None => None end
  end.

Definition spec_tree (root : info) (cs : list call) : option ptree :=
  match spec_calls cs (Frame (Some (i_id root, i_token root)) [], []) with
  | Some (f, []) => Some (TProd (i_id root) (i_token root) (f_kids f))
  | _ => None
  end.

(** The calls that the implementation gets wrong, see PtProps.v: cancelling a container without
    children, and finishing a container without children in a production without children. *)
Definition careful (c : call) (x : state) : bool :=
  match c, x with
  | CDrop, (f, _) => negb (length (f_kids f) =? 0)
  | CClose, (f, Some g :: _) =>
      match f_prod g with
      | Some _ => negb ((length (f_kids f) =? 0) && (length (f_kids g) =? 0))
      | None => true
      end
  | _, _ => true
  end.
Fixpoint careful_calls (cs : list call) (x : state) : bool :=
  match cs with
  | [] => true
  | c :: cs => careful c x && match spec_call c x with Some x => careful_calls cs x | None => true end
  end.

(** Nodes below the children of a cancelled node: those the size does not forget. *)
Definition below (ts : list ptree) : nat := list_sum (map (fun t => pred (nodes t)) ts).
Definition lost (c : call) (x : state) : nat :=
  match c, x with
  | CCancel, (f, Some _ :: _) | CDrop, (f, _) => below (f_kids f)
  | _, _ => 0
  end.
Fixpoint lost_calls (cs : list call) (x : state) : nat :=
  match cs with
  | [] => 0
  | c :: cs => lost c x + match spec_call c x with Some x => lost_calls cs x | None => 0 end
  end.

(** What a traversal shows: productions are entered and exited, tokens are visited. *)
Fixpoint preorder (t : ptree) : list shown :=
  match t with
  | TTok k b e => [SLeaf k b e]
  | TProd id tok kids => SEnter id tok :: flat_map preorder kids ++ [SExit id tok]
  end.

(** The position of a node for lexy_ext::node_position: the first position token among the
    children, otherwise the begin of the first token below the node. *)
Definition is_position (t : ptree) : bool := match t with TTok KPosition _ _ => true | _ => false end.
Definition designated (t : ptree) : option nat :=
  match t with
  | TTok _ b _ => Some b
  | TProd _ _ kids =>
      match find is_position kids with
      | Some (TTok _ b _) => Some b
      | _ => match leaves t with (_, b, _) :: _ => Some b | [] => None end
      end
  end.

(** Kinds of nodes. *)
Definition token_is (k : tkind) (t : ptree) : bool :=
  match t with TTok k' _ _ => tkind_eqb k' k | TProd _ _ _ => false end.
Definition production_is (id : nat) (t : ptree) : bool :=
  match t with TProd id' _ _ => id' =? id | TTok _ _ _ => false end.
Definition same_kind (t u : ptree) : bool :=
  match t, u with
  | TTok k _ _, TTok k' _ _ => tkind_eqb k k'
  | TProd id _ _, TProd id' _ _ => id =? id'
  | _, _ => false
  end.

(** ** Nodes and their handles *)
(** A tree whose nodes are labelled with the handles by which the user refers to them. *)
Inductive ltree :=
| LT (a : addr) (k : tkind) (b e : nat)
| LP (a : addr) (id : nat) (tok : bool) (kids : list ltree).

Definition la (t : ltree) : addr := match t with LT a _ _ _ => a | LP a _ _ _ => a end.
Fixpoint erase (t : ltree) : ptree :=
  match t with LT _ k b e => TTok k b e | LP _ id tok kids => TProd id tok (map erase kids) end.
(** [s] is a node of [t] (with everything below it). *)
Inductive Sub : ltree -> ltree -> Prop :=
| Sub_refl t : Sub t t
| Sub_kid a id tok kids k s : In k kids -> Sub k s -> Sub (LP a id tok kids) s.

(** All handles, in the order in which a traversal reaches the nodes. *)
Fixpoint handles (s : ltree) : list addr :=
  match s with LT a _ _ _ => [a] | LP a _ _ kids => a :: flat_map handles kids end.

(** The token nodes of a labelled tree. *)
Fixpoint toks (s : ltree) : list (addr * (tkind * nat * nat)) :=
  match s with LT a k b e => [(a, (k, b, e))] | LP _ _ _ kids => flat_map toks kids end.

(** ** Lexemes *)
(** Where the first token begins. *)
Definition first_begin (l : list (tkind * nat * nat)) : option nat := match l with [] => None | (_, b, _) :: _ => Some b end.
(** Where the last token of the list ends. *)
Definition last_end (l : list (tkind * nat * nat)) : option nat := match rev l with [] => None | (_, _, e) :: _ => Some e end.

(** Each token begins where the previous one ended. *)
Inductive in_a_row : nat -> list (tkind * nat * nat) -> nat -> Prop :=
| row_nil p : in_a_row p [] p
| row_cons k p e l q : p <= e -> in_a_row e l q -> in_a_row p ((k, p, e) :: l) q.

(** Every production has a child. *)
Fixpoint full (t : ptree) : bool :=
  match t with TTok _ _ _ => true | TProd _ _ kids => negb (length kids =? 0) && forallb full kids end.

(** The input that a token covers. *)
Definition slice (inp : list N) (b e : nat) : list N := firstn (e - b) (skipn b inp).

(** ** Storage *)
(** The words of a node without children, and those of a tree: a production whose first child
    does not follow it directly has a fourth word. *)
Definition node_words (a : addr) : list addr := [a; plus a 1; plus a 2].
Definition hda (l : list ltree) : option addr := match l with [] => None | t :: _ => Some (la t) end.
Definition adjacent (a : addr) (kids : list ltree) : bool := opt_eqb (hda kids) (Some (plus a 3)).
(** The words a tree occupies. *)
Fixpoint fp (t : ltree) : list addr :=
  match t with
  | LT a _ _ _ => [a; plus a 1; plus a 2]
  | LP a _ _ kids =>
      [a; plus a 1; plus a 2] ++
      (match kids with [] => [] | _ => if adjacent a kids then [] else [plus a 3] end) ++
      flat_map fp kids
  end.

(** The memory of an old tree, or no memory at all: [_head] is one of the allocated blocks. *)
Definition wf_old (b : buffer) : Prop := forall h, b_head b = Some h -> h < b_blocks b.
