(** Parsing a parse tree: the reader over the children of a node and the rules for nodes.

    Source: include/lexy/input/parse_tree_input.hpp, include/lexy/dsl/parse_tree_node.hpp, and the traits
    include/lexy/parse_tree.hpp:1219-1281.  The tree is in the memory of PtModel.v.

    [None] / [UB]: a precondition is violated or memory is read as something it is not. *)
From Verif Require Import Prelude RuleModel PtModel.
Close Scope N_scope.

(** What a node rule looks for: [tnode<k>] or [pnode<P>]. *)
Inductive nkind := NTok (k : tkind) | NProd (id : nat).

Section Reader.
Variable m : memory.
Variable F : nat.   (* for the loops over nodes: at least the size of the tree *)

(** parse_tree_input_traits, parse_tree.hpp:1237-1259; null is [None]. *)
Definition n_first_child (a : addr) : option (option addr) :=
  match type_of m a with
  | Some true => first_child m a
  | Some false => Some None
  | None => None
  end.
Definition n_sibling (a : addr) : option (option addr) :=
  match link_of m a with
  | Some (n, _, false) => Some n
  | Some (_, _, true) => Some None
  | None => None
  end.
(** has_kind, parse_tree.hpp:1261-1265. *)
Definition n_has_kind (a : option addr) (d : nkind) : option bool :=
  match a with
  | None => Some false
  | Some a => match d with NTok k => kind_eq_token m a k | NProd id => kind_eq_production m a id end
  end.

(** class _ptr, parse_tree_input.hpp:69-129; a marker is the reader itself. *)
Record reader := Rd { r_parent : addr; r_cur : option addr }.
(** The constructor, l.88-90. *)
Definition open_reader (root : option addr) : option reader :=
  match root with
  | None => None
  | Some a => match n_first_child a with Some c => Some (Rd a c) | None => None end
  end.
Definition child_reader (x : reader) : option reader := open_reader (r_cur x).       (* l.92-95 *)
Definition lexeme_reader (x : reader) : option (nat * nat) :=                       (* l.96-100 *)
  match r_cur x with
  | None => None
  | Some a => match lexeme m a with Some (Some l) => Some l | _ => None end
  end.
Definition bump (x : reader) : option reader :=                                     (* l.107-111 *)
  match r_cur x with
  | None => None
  | Some a => match n_sibling a with Some n => Some (Rd (r_parent x) n) | None => None end
  end.
(** position, l.79-83, 122-125. *)
Definition pos (x : reader) : option nat :=
  match r_cur x with
  | None => match covering_lexeme F m (r_parent x) with Some (_, e) => Some e | None => None end
  | Some a => position F m a
  end.

(** ** Events and rules *)
Inductive ntag := TagClass (d : nkind) | TagTokenEnd | TagProductionEnd | TagChoice | TagEof | TagLexeme (n : nat).
Inductive nev :=
| NToken (k : tkind) (b e : nat)
| NError (t : ntag) (b e : nat)
| NStart (p : nat) (at_ : nat) | NFinish (p : nat) (at_ : nat) | NCancel (p : nat) (at_ : nat).

(** Rules over nodes: [tnode<k>] and [pnode<P>] as tokens; [tnode<k>(lexeme rule)] with the lexeme
    rule given by a number; [pnode<P>(rule)]; sequences, choices, [if_]/[opt], [while_], [eof], [p<Production>].  Conditions of
    branches are node rules, [eof] and [else_]. *)
Inductive nrule :=
| RNothing
| RNode (d : nkind)
| RTokIn (k : tkind) (lex : nat)
| RProdIn (id : nat) (r : nrule)
| RSeq (r1 r2 : nrule)
| RChoice (bs : list (ncond * nrule))
| ROpt (c : ncond) (r : nrule)
| RWhile (c : ncond) (r : nrule)
| REof
| RProd (p : nat)
with ncond := CNode (d : nkind) | CTokIn (k : tkind) (lex : nat) | CProdIn (id : nat) (r : nrule) | CEof | CElse.

Inductive nres := Ok (x : reader) (l : list nev) | Fail (x : reader) (l : list nev) | UB | NoFuel.

(** The rule that a condition parses.  [finish] of a branch does what [parse] does once the condition
    was found to hold: the kind of the node is looked at again here. *)
Definition cond_rule (c : ncond) : nrule :=
  match c with
  | CNode d => RNode d
  | CTokIn k i => RTokIn k i
  | CProdIn id r => RProdIn id r
  | CEof => REof
  | CElse => RNothing
  end.
(** try_parse, parse_tree_node.hpp:83-89, 137-156; eof.hpp:29-32; else_. *)
Definition try_cond (x : reader) (c : ncond) : option bool :=
  match c with
  | CNode d => n_has_kind (r_cur x) d
  | CTokIn k _ => n_has_kind (r_cur x) (NTok k)
  | CProdIn id _ => n_has_kind (r_cur x) (NProd id)
  | CEof => Some (match r_cur x with None => true | Some _ => false end)
  | CElse => Some true
  end.
Fixpoint select (x : reader) (bs : list (ncond * nrule)) : option (option (ncond * nrule)) :=
  match bs with
  | [] => Some None
  | (c, r) :: bs =>
      match try_cond x c with
      | None => None
      | Some true => Some (Some (c, r))
      | Some false => select x bs
      end
  end.

(** The token kind of the rule: that of the node for [tnode], l.217-220; none for [pnode]. *)
Definition rule_kind (d : nkind) : tkind := match d with NTok k => k | NProd _ => KUnknown end.

(** The grammar: rules of productions; the whitespace is a node rule or there is none; a lexeme rule gives
    for the range of a lexeme whether it succeeds, where it stops and its events. *)
Variable prods : nat -> nrule.
Variable ws : option nkind.
Variable lexrule : nat -> nat -> nat -> bool * nat * list nev.

(** skip_whitespace, whitespace.hpp:118-152 for a token rule: nodes are skipped while they match. *)
Fixpoint skip_nodes (n : nat) (d : nkind) (x : reader) : option reader :=
  match n with
  | O => None
  | S n =>
      match n_has_kind (r_cur x) d with
      | None => None
      | Some false => Some x
      | Some true => match bump x with Some x => skip_nodes n d x | None => None end
      end
  end.
Definition skip (x : reader) (l : list nev) : nres :=
  match ws with
  | None => Ok x l
  | Some d =>
      match pos x, skip_nodes F d x with
      | Some b, Some x => match pos x with Some e => Ok x (l ++ [NToken KWhitespace b e]) | None => UB end
      | _, _ => UB
      end
  end.

(** parse_tree_node.hpp:49-66: behind a child rule that stopped at [q] (a position) or failed there, [x]: the
    reader behind the node; [rest]: whether something is left; then the whitespace. *)
Definition after_child (tag : ntag) (rest : bool) (q : option nat) (x : reader) (l : list nev) : nres :=
  if rest then
    match q, pos x with
    | Some b, Some e => skip x (l ++ [NToken KError b e; NError tag b e])                 (* l.31-39 *)
    | _, _ => UB
    end
  else skip x l.
Definition child_failed (q : option nat) (x : reader) (l : list nev) : nres :=
  match q, pos x with
  | Some b, Some e => Fail x (l ++ [NToken KError b e])                                   (* l.62-65 *)
  | _, _ => UB
  end.

(** Parsing; whitespace is the same in all productions. *)
Fixpoint run (fuel : nat) (r : nrule) (x : reader) (l : list nev) : nres :=
  match fuel with
  | O => NoFuel
  | S fuel =>
    match r with
    | RNothing => Ok x l
    | RNode d =>                                                 (* token.hpp:73-101, 107-115 *)
        match pos x, n_has_kind (r_cur x) d with
        | Some b, Some true =>
            match bump x with
            | None => UB
            | Some x =>
                match pos x with
                | None => UB
                | Some e => skip x (l ++ [NToken (rule_kind d) b e])
                end
            end
        | Some b, Some false => Fail x (l ++ [NToken KError b b; NError (TagClass d) b b])
        | _, _ => UB
        end
    | RTokIn k i =>                                              (* parse_tree_node.hpp:102-120 *)
        match n_has_kind (r_cur x) (NTok k) with
        | None => UB
        | Some false => match pos x with Some b => Fail x (l ++ [NError (TagClass (NTok k)) b b]) | None => UB end
        | Some true =>
            match lexeme_reader x, bump x with
            | Some (b, e), Some x =>
                (* the whitespace rule matches nothing in a lexeme, l.148-153 *)
                let l := l ++ match ws with Some _ => [NToken KWhitespace b b] | None => [] end in
                let '(ok, q, d) := lexrule i b e in
                if ok then after_child TagTokenEnd (negb (q =? e)) (Some q) x (l ++ d)
                else child_failed (Some q) x (l ++ d)
            | _, _ => UB
            end
        end
    | RProdIn id r =>
        match n_has_kind (r_cur x) (NProd id) with
        | None => UB
        | Some false => match pos x with Some b => Fail x (l ++ [NError (TagClass (NProd id)) b b]) | None => UB end
        | Some true =>
            match child_reader x, bump x with
            | Some c, Some x =>
                match skip c l with
                | Ok c l =>
                    match run fuel r c l with
                    | Ok c l =>
                        match r_cur c with
                        | None => after_child TagProductionEnd false None x l
                        | Some _ => after_child TagProductionEnd true (pos c) x l
                        end
                    | Fail c l => child_failed (pos c) x l
                    | y => y
                    end
                | y => y
                end
            | _, _ => UB
            end
        end
    | RSeq r1 r2 =>
        match run fuel r1 x l with Ok x l => run fuel r2 x l | y => y end
    | RChoice bs =>                                              (* choice.hpp *)
        match select x bs with
        | None => UB
        | Some (Some (c, r)) => run fuel (RSeq (cond_rule c) r) x l
        | Some None => match pos x with Some b => Fail x (l ++ [NError TagChoice b b]) | None => UB end
        end
    | ROpt c r =>                                                (* option.hpp, if.hpp *)
        match try_cond x c with
        | None => UB
        | Some true => run fuel (RSeq (cond_rule c) r) x l
        | Some false => Ok x l
        end
    | RWhile c r =>                                              (* loop.hpp *)
        match try_cond x c with
        | None => UB
        | Some true => run fuel (RSeq (RSeq (cond_rule c) r) (RWhile c r)) x l
        | Some false => Ok x l
        end
    | REof =>                                                    (* eof.hpp:51-77 *)
        match pos x with
        | None => UB
        | Some b =>
            match r_cur x with
            | None => Ok x (l ++ [NToken KEof b b])
            | Some _ => Ok x (l ++ [NError TagEof b b])
            end
        end
    | RProd p =>                                                 (* production.hpp:42-74 *)
        match pos x with
        | None => UB
        | Some b =>
            match run fuel (prods p) x (l ++ [NStart p b]) with
            | Ok x l => match pos x with Some e => Ok x (l ++ [NFinish p e]) | None => UB end
            | Fail x l => match pos x with Some e => Fail x (l ++ [NCancel p e]) | None => UB end
            | y => y
            end
        end
    end
  end.

(** parse_tree_input::reader and _do_action, parse_tree_input.hpp:154-157, action/base.hpp:202-227. *)
Definition reparse (fuel : nat) (p : nat) (root : option addr) : nres :=
  match open_reader root with
  | None => UB
  | Some x =>
      match pos x with
      | None => UB
      | Some b =>
          match skip x [NStart p b] with
          | Ok x l =>
              match run fuel (prods p) x l with
              | Ok x l => match pos x with Some e => Ok x (l ++ [NFinish p e]) | None => UB end
              | Fail x l => match pos x with Some e => Fail x (l ++ [NCancel p e]) | None => UB end
              | y => y
              end
          | y => y
          end
      end
  end.
End Reader.
