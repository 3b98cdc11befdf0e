(** Specification vocabulary for expressions: declared levels, groups and
    associativity, and which trees respect them.  Binding powers do not occur. *)
From Verif Require Import Prelude ExprModel.
Open Scope nat_scope.

(** The declared operations with their level (1 is the root, operands have higher
    levels: they bind tighter) and the groups alternative they are in: the path of
    alternatives chosen in enclosing [groups], [[]] if there is none. *)
Record decl := Decl { d_id : nat; d_kind : opkind; d_lits : list literal; d_level : nat; d_group : list nat }.
Fixpoint decls (o : operation) (above : nat) (path : list nat) : list decl :=
  match o with
  | OAtom => []
  | OOp id k lits operand => Decl id k lits (S above) path :: decls operand (S above) path
  | OGroups gs =>
    (fix alts (i : nat) (gs : list operation) : list decl :=
       match gs with
       | [] => []
       | o :: gs' => decls o above (path ++ [i]) ++ alts (S i) gs'
       end) 0 gs
  end.
Definition declared (tbl : operation) (d : decl) : Prop := In d (decls tbl 0 []).

(** Every operation type occurs once and no operator literal is empty. *)
Definition table_ok (tbl : operation) : Prop :=
  NoDup (map d_id (decls tbl 0 [])) /\
  forall d x, declared tbl d -> In x (d_lits d) -> l_text x <> [].

(** Literals of distinct operations of the same fixity never match the same input (the
    documentation asks for [not_followed_by] where they share a prefix), and
    equally long ones of the same operation do not either. *)
Definition unambiguous (tbl : operation) : Prop :=
  forall d d' i j x y inp, declared tbl d -> declared tbl d' -> is_pre (d_kind d) = is_pre (d_kind d') ->
    nth_error (d_lits d) i = Some x -> nth_error (d_lits d') j = Some y ->
    matches x inp = true -> matches y inp = true ->
    d = d' /\ (length (l_text x) = length (l_text y) -> i = j).

(** Operators of a tree. *)
Fixpoint ops (t : tree) : list nat :=
  match t with
  | Leaf _ _ => []
  | Pre o t => o_id o :: ops t
  | Post t o => ops t ++ [o_id o]
  | Inf l o r => ops l ++ o_id o :: ops r
  | Lst sp _ => ops_sp sp
  end
with ops_sp (sp : spine) : list nat :=
  match sp with SOne t => ops t | SMore sp o t => ops_sp sp ++ o_id o :: ops t end.

(** Operators that extend to the right end of the text, and could take over what
    follows. *)
Fixpoint right_edge (t : tree) : list nat :=
  match t with
  | Leaf _ _ | Post _ _ => []
  | Pre o t => o_id o :: right_edge t
  | Inf _ o r => o_id o :: right_edge r
  | Lst (SOne t) _ => right_edge t
  | Lst (SMore _ o t) _ => o_id o :: right_edge t
  end.
Definition last_operand (sp : spine) : tree := match sp with SOne t | SMore _ _ t => t end.
(** Infix and postfix operators that extend to the left end. *)
Fixpoint left_edge (t : tree) : list nat :=
  match t with
  | Leaf _ _ | Pre _ _ => []
  | Post t o => o_id o :: left_edge t
  | Inf l o _ => o_id o :: left_edge l
  | Lst sp _ => left_edge_sp sp
  end
with left_edge_sp (sp : spine) : list nat :=
  match sp with SOne t => left_edge t | SMore sp o _ => o_id o :: left_edge_sp sp end.
(** The prefix operator at the left end, if any. *)
Fixpoint left_prefix (t : tree) : list nat :=
  match t with
  | Leaf _ _ => []
  | Pre o _ => [o_id o]
  | Post t _ | Inf t _ _ => left_prefix t
  | Lst sp _ => left_prefix_sp sp
  end
with left_prefix_sp (sp : spine) : list nat :=
  match sp with SOne t => left_prefix t | SMore sp _ _ => left_prefix_sp sp end.

Section Table.
Variable tbl : operation.
Definition kind_of (id : nat) (k : opkind) : Prop := exists d, declared tbl d /\ d_id d = id /\ d_kind d = k.
(** [q] binds tighter than [o]. *)
Definition tighter (q o : nat) : Prop :=
  exists dq d, declared tbl dq /\ declared tbl d /\ d_id dq = q /\ d_id d = o /\ d_level d < d_level dq.

(** The tree respects precedence and associativity: what an operator takes as left
    operand does not end in an operator that should have taken it instead, and its right
    operand does not begin with one. *)
Fixpoint respects (t : tree) : Prop :=
  match t with
  | Leaf _ _ => True
  | Pre o r => kind_of (o_id o) KPre /\ respects r /\
      Forall (fun q => tighter q (o_id o)) (left_edge r) /\
      Forall (fun q => tighter q (o_id o) \/ q = o_id o) (left_prefix r)
  | Post l o => kind_of (o_id o) KPost /\ respects l /\
      Forall (fun q => tighter q (o_id o)) (right_edge l)
  | Inf l o r =>
      (kind_of (o_id o) ILeft \/ kind_of (o_id o) IRight \/ kind_of (o_id o) ISingle) /\
      respects l /\ respects r /\
      Forall (fun q => tighter q (o_id o) \/ (q = o_id o /\ kind_of q ILeft)) (right_edge l) /\
      Forall (fun q => tighter q (o_id o) \/ (q = o_id o /\ kind_of q IRight)) (left_edge r) /\
      Forall (fun q => tighter q (o_id o)) (left_prefix r)
  | Lst sp dangling =>
      dangling = None /\ (exists sp' o v, sp = SMore sp' o v /\ kind_of (o_id o) IList) /\ respects_sp sp
  end
with respects_sp (sp : spine) : Prop :=
  match sp with
  | SOne t => respects t
  | SMore sp o t => respects_sp sp /\ respects t /\
      (exists x, sp = SOne x \/ exists sp' o', sp = SMore sp' o' x /\ o_id o' = o_id o) /\
      Forall (fun q => tighter q (o_id o)) (right_edge (last_operand sp)) /\
      Forall (fun q => tighter q (o_id o)) (left_edge t ++ left_prefix t)
  end.

(** Operators of distinct groups are not mixed. *)
Definition unmixed (t : tree) : Prop :=
  exists g, Forall (fun id => exists d, declared tbl d /\ d_id d = id /\ (d_group d = [] \/ d_group d = g)) (ops t).
End Table.

(** The grammar one would write down for a declaration: one nonterminal per operation,
    whose operands come from the operation's operand. *)
Inductive grammar : operation -> tree -> Prop :=
| G_atom b e : grammar OAtom (Leaf b e)
| G_alternative gs o t : In o gs -> grammar o t -> grammar (OGroups gs) t
| G_operand id k lits o t : grammar o t -> grammar (OOp id k lits o) t
| G_left id lits o l q r : o_id q = id ->
    grammar (OOp id ILeft lits o) l -> grammar o r -> grammar (OOp id ILeft lits o) (Inf l q r)
| G_right id lits o l q r : o_id q = id ->
    grammar o l -> grammar (OOp id IRight lits o) r -> grammar (OOp id IRight lits o) (Inf l q r)
| G_single id lits o l q r : o_id q = id ->
    grammar o l -> grammar o r -> grammar (OOp id ISingle lits o) (Inf l q r)
| G_prefix id lits o q t : o_id q = id ->
    grammar (OOp id KPre lits o) t -> grammar (OOp id KPre lits o) (Pre q t)
| G_postfix id lits o q t : o_id q = id ->
    grammar (OOp id KPost lits o) t -> grammar (OOp id KPost lits o) (Post t q)
| G_list id lits o sp q t : o_id q = id ->
    items id o sp -> grammar o t -> grammar (OOp id IList lits o) (Lst (SMore sp q t) None)
with items : nat -> operation -> spine -> Prop :=
| I_one id o t : grammar o t -> items id o (SOne t)
| I_more id o sp q t : o_id q = id -> items id o sp -> grammar o t -> items id o (SMore sp q t).

(** Every [groups] has an alternative. *)
Fixpoint groups_ok (o : operation) : Prop :=
  match o with
  | OAtom => True
  | OOp _ _ _ o => groups_ok o
  | OGroups gs => gs <> [] /\
    (fix all (gs : list operation) : Prop := match gs with [] => True | o :: r => groups_ok o /\ all r end) gs
  end.
(** No infix or postfix operator binds tighter than a postfix operator. *)
Definition tight_postfix (tbl : operation) : Prop :=
  forall dp d, declared tbl dp -> declared tbl d -> d_kind dp = KPost -> is_pre (d_kind d) = false ->
    d_level d <= d_level dp.

(** ** The text of a tree *)
Section Text.
Variable tbl : operation.
Variable input : list N.
Variable atom : nat -> bool * nat.
Variable op_rest : nat -> nat -> nat -> bool * nat.

(** An operator node is a literal of its operation, the longest one at the place it says,
    and what belongs to it. *)
Definition op_text (o : opn) : Prop :=
  exists d x, declared tbl d /\ d_id d = o_id o /\ nth_error (d_lits d) (o_idx o) = Some x /\
    matches x (skipn (o_b o) input) = true /\
    (forall y, In y (d_lits d) -> matches y (skipn (o_b o) input) = true -> length (l_text y) <= length (l_text x)) /\
    o_m o = o_b o + length (l_text x) /\
    exists n, op_rest (o_id o) (o_idx o) (o_m o) = (true, n) /\ o_e o = o_m o + n.

(** The in-order traversal of the tree is the text from [b] to [e], without gaps. *)
Fixpoint reads (t : tree) (b e : nat) : Prop :=
  match t with
  | Leaf b' e' => b = b' /\ e = e' /\ exists n, atom b = (true, n) /\ e = b + n
  | Pre o t => o_b o = b /\ op_text o /\ reads t (o_e o) e
  | Post t o => reads t b (o_b o) /\ op_text o /\ o_e o = e
  | Inf l o r => reads l b (o_b o) /\ op_text o /\ reads r (o_e o) e
  | Lst sp dangling => dangling = None /\ reads_sp sp b e
  end
with reads_sp (sp : spine) (b e : nat) : Prop :=
  match sp with
  | SOne t => reads t b e
  | SMore sp o t => reads_sp sp b (o_b o) /\ op_text o /\ reads t (o_e o) e
  end.

(** No literal of [d] is in the input at [p]. *)
Definition absent (d : decl) (p : nat) : Prop :=
  forall x, In x (d_lits d) -> matches x (skipn p input) = false.
End Text.

(** Operator applications: a list counts once. *)
Fixpoint applications (t : tree) : nat :=
  match t with
  | Leaf _ _ => 0
  | Pre _ t => S (applications t)
  | Post t _ => S (applications t)
  | Inf l _ r => S (applications l + applications r)
  | Lst sp _ => S (applications_sp sp)
  end
with applications_sp (sp : spine) : nat :=
  match sp with SOne t => applications t | SMore sp _ t => applications_sp sp + applications t end.
(** Nesting: the longest chain of operators within operands of operators. *)
Fixpoint nesting (t : tree) : nat :=
  match t with
  | Leaf _ _ => 0
  | Pre _ t => S (nesting t)
  | Post t _ => S (nesting t)
  | Inf l _ r => S (Nat.max (nesting l) (nesting r))
  | Lst sp _ => S (nesting_sp sp)
  end
with nesting_sp (sp : spine) : nat :=
  match sp with SOne t => nesting t | SMore sp _ t => Nat.max (nesting_sp sp) (nesting t) end.

Definition is_error (e : ev) : bool :=
  match e with
  | EAtomError _ _ | ERestError _ _ | ENesting _ _ | EChain _ _ | EGroup _ _ => true
  | _ => false
  end.
Definition no_errors (l : list ev) : Prop := forall e, In e l -> is_error e = false.
Definition nesting_error (l : list ev) : Prop := exists b m, In (ENesting b m) l.

(** ** The nodes of a parse tree as described by the events: an operation node takes
    over everything in the current operation chain. *)
Inductive node :=
| NToken (id idx b e : nat) | NRest (b e : nat) | NAtom (b e : nat)
| NOp (id : nat) (children : list node).
Definition step (e : ev) (stack : list (list node)) : list (list node) :=
  let add n := match stack with c :: r => (c ++ [n]) :: r | [] => [] end in
  match e with
  | EStart _ => [] :: stack
  | EFinish _ => match stack with c :: p :: r => (p ++ c) :: r | _ => [] end
  | EOp id _ => match stack with c :: r => [NOp id c] :: r | [] => [] end
  | EToken id idx b e => add (NToken id idx b e)
  | ERest b e => add (NRest b e)
  | EAtom b e => add (NAtom b e)
  | _ => stack
  end.
Definition replay (l : list ev) (stack : list (list node)) : list (list node) :=
  fold_left (fun s e => step e s) l stack.
(** The nodes of a value. *)
Definition op_nodes (o : opn) : list node :=
  [NToken (o_id o) (o_idx o) (o_b o) (o_m o); NRest (o_m o) (o_e o)].
Fixpoint nodes (t : tree) : list node :=
  match t with
  | Leaf b e => [NAtom b e]
  | Pre o t => [NOp (o_id o) (op_nodes o ++ nodes t)]
  | Post t o => [NOp (o_id o) (nodes t ++ op_nodes o)]
  | Inf l o r => [NOp (o_id o) (nodes l ++ op_nodes o ++ nodes r)]
  | Lst sp _ => match sp with SMore _ o _ => [NOp (o_id o) (nodes_sp sp)] | SOne _ => nodes_sp sp end
  end
with nodes_sp (sp : spine) : list node :=
  match sp with
  | SOne t => nodes t
  | SMore sp o t => nodes_sp sp ++ op_nodes o ++ nodes t
  end.
