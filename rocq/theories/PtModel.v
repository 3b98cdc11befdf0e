(** The parse tree: node storage, builder, navigation.

    Source: include/lexy/parse_tree.hpp.

    Memory is modelled word by word (one word = 8 bytes = one pointer), so that two nodes that
    overlap would really overwrite each other.  Sizes are those of a 64-bit platform and a
    pointer iterator: a token node and a production node have three words each
    (parse_tree.hpp:102-143 and 146-160: packed pointer, begin, {size, kind}; packed pointer, id,
    {child_count:62, token_production:1, first_child_adjacent:1}), a block has 4096 - 8 bytes of
    memory (parse_tree.hpp:193), i.e. 511 words.  The capacity is a parameter.

    An address is a block number and a word offset; blocks are numbered in the order in which they
    are allocated, and the memory resource never fails.  [None] is a violated precondition or a
    read of memory that does not contain what the code expects there.

    Simplified: lexemes have fewer than 2^32 units and nodes fewer than 2^62 children; an input
    iterator is a position. *)
From Verif Require Import Prelude RuleModel.
Close Scope N_scope.

Definition addr : Type := nat * nat.
Definition addr_eqb (a b : addr) : bool := (fst a =? fst b) && (snd a =? snd b).
Definition plus (a : addr) (n : nat) : addr := (fst a, snd a + n).
Definition opt_eqb (a b : option addr) : bool :=
  match a, b with
  | None, None => true
  | Some a, Some b => addr_eqb a b
  | _, _ => false
  end.

(** The words of pt_node, pt_node_token, pt_node_production (parse_tree.hpp:31-181) and the
    pointer to the first child. *)
Inductive word :=
| WJunk                                              (* uninitialised *)
| WLink (next : option addr) (prod parent : bool)    (* pt_node::_value: pointer, type, role *)
| WBegin (p : nat)                                   (* pt_node_token::begin *)
| WEnd (size : nat) (k : tkind)                      (* end_impl, kind *)
| WId (id : nat)                                     (* pt_node_production::id *)
| WCount (n : nat) (token adjacent : bool)           (* child_count, flags *)
| WPtr (p : option addr).

Definition memory := addr -> word.
Definition write (a : addr) (w : word) (m : memory) : memory :=
  fun x => if addr_eqb x a then w else m x.

(** *** pt_node, parse_tree.hpp:31-99 *)
Definition link_of (m : memory) (a : addr) : option (option addr * bool * bool) :=
  match m a with WLink n t r => Some (n, t, r) | _ => None end.
Definition type_of (m : memory) (a : addr) : option bool :=
  match m a with WLink _ t _ => Some t | _ => None end.
Definition next_node (m : memory) (a : addr) : option (option addr) :=
  match m a with WLink n _ _ => Some n | _ => None end.
Definition next_role (m : memory) (a : addr) : option bool :=
  match m a with WLink _ _ r => Some r | _ => None end.

(** set_sibling, set_parent, parse_tree.hpp:56-63: keep the type. *)
Definition set_sibling (a sibling : addr) (m : memory) : option memory :=
  match type_of m a with Some t => Some (write a (WLink (Some sibling) t false) m) | None => None end.
Definition set_parent (a parent : addr) (m : memory) : option memory :=
  match type_of m a with Some t => Some (write a (WLink (Some parent) t true) m) | None => None end.

(** *** pt_node_token, parse_tree.hpp:102-143 *)
Definition put_token (a : addr) (k : tkind) (b e : nat) (m : memory) : memory :=
  write (plus a 2) (WEnd (e - b) k) (write (plus a 1) (WBegin b) (write a (WLink None false true) m)).
Definition token_begin (m : memory) (a : addr) : option nat :=
  match m (plus a 1) with WBegin b => Some b | _ => None end.
Definition token_kind (m : memory) (a : addr) : option tkind :=
  match m (plus a 2) with WEnd _ k => Some k | _ => None end.
Definition token_end (m : memory) (a : addr) : option nat :=
  match m (plus a 1), m (plus a 2) with WBegin b, WEnd n _ => Some (b + n) | _, _ => None end.
Definition update_end (a : addr) (e : nat) (m : memory) : option memory :=
  match m (plus a 1), m (plus a 2) with
  | WBegin b, WEnd _ k => Some (write (plus a 2) (WEnd (e - b) k) m)
  | _, _ => None
  end.

(** *** pt_node_production, parse_tree.hpp:146-181 *)
Definition put_production (a : addr) (id : nat) (tok : bool) (m : memory) : memory :=
  write (plus a 2) (WCount 0 tok true) (write (plus a 1) (WId id) (write a (WLink None true true) m)).
Definition first_child (m : memory) (a : addr) : option (option addr) :=
  match m (plus a 2) with
  | WCount n _ adj =>
      if n =? 0 then Some None
      else if adj then Some (Some (plus a 3))
      else match m (plus a 3) with WPtr p => Some p | _ => None end
  | _ => None
  end.
Definition child_count (m : memory) (a : addr) : option nat :=
  match m (plus a 2) with WCount n _ _ => Some n | _ => None end.

(** production_info, grammar.hpp: id and the two flags. *)
Record info := Info { i_id : nat; i_token : bool; i_transparent : bool }.

(** ** pt_buffer, parse_tree.hpp:189-326 *)
(** [b_blocks]: how many blocks were allocated; [b_next]: their [next] members; [b_head]: _head;
    [b_top]: _cur_block and _cur_pos. *)
Record buffer := Buffer {
  b_mem : memory;
  b_blocks : nat;
  b_next : nat -> option nat;
  b_head : option nat;
  b_top : addr
}.

(** The constructor, parse_tree.hpp:223-225. *)
Definition new_buffer : buffer := Buffer (fun _ => WJunk) 0 (fun _ => None) None (0, 0).

(** reset, parse_tree.hpp:257-264. *)
Definition reset (b : buffer) : buffer :=
  match b_head b with
  | Some h => Buffer (b_mem b) (b_blocks b) (b_next b) (Some h) (h, 0)
  | None => Buffer (b_mem b) (S (b_blocks b)) (b_next b) (Some (b_blocks b)) (b_blocks b, 0)
  end.

Definition set_mem (m : memory) (b : buffer) : buffer :=
  Buffer m (b_blocks b) (b_next b) (b_head b) (b_top b).

(** What the destructor deallocates, parse_tree.hpp:235-240: the list that starts at [_head]. *)
Fixpoint released (fuel : nat) (next : nat -> option nat) (cur : option nat) : list nat :=
  match fuel, cur with
  | S fuel, Some b => b :: released fuel next (next b)
  | _, _ => []
  end.
Definition destroyed (b : buffer) : list nat := released (b_blocks b) (b_next b) (b_head b).

Section Capacity.
Variable cap : nat.   (* block_size in words: 511 *)

(** remaining_capacity, parse_tree.hpp:315-318. *)
Definition remaining (b : buffer) : nat := cap - snd (b_top b).

(** reserve, parse_tree.hpp:266-275. *)
Definition reserve (n : nat) (b : buffer) : buffer :=
  if remaining b <? n
  then let new := b_blocks b in
       Buffer (b_mem b) (S new)
         (fun i => if i =? fst (b_top b) then Some new else b_next b i)
         (b_head b) (new, 0)
  else b.

(** allocate, parse_tree.hpp:277-289: the memory; the constructor writes into it. *)
Definition allocate (n : nat) (b : buffer) : option (addr * buffer) :=
  if n <=? remaining b
  then Some (b_top b, Buffer (b_mem b) (b_blocks b) (b_next b) (b_head b) (plus (b_top b) n))
  else None.

(** unwind, parse_tree.hpp:296-312: [_cur_block->memory <= pos && pos < _cur_block->end()]. *)
Definition unwind (marker : addr) (b : buffer) : buffer :=
  Buffer (b_mem b) (b_blocks b) (b_next b) (b_head b)
    (if (fst marker =? fst (b_top b)) && (snd marker <? cap) then marker else (fst (b_top b), 0)).

(** ** builder, parse_tree.hpp:419-755 *)
(** class marker, parse_tree.hpp:422-536. *)
Record marker := Marker {
  m_unwind : addr;
  m_prod : option addr;
  m_count : nat;
  m_first : option addr;
  m_last : option addr;
  m_depth : nat;       (* cur_depth *)
  m_max : nat          (* local_max_depth *)
}.
Definition new_marker (unwind : addr) (depth : nat) (prod : option addr) : marker :=
  Marker unwind prod 0 None None depth depth.
Definition with_max (d : nat) (k : marker) : marker :=
  Marker (m_unwind k) (m_prod k) (m_count k) (m_first k) (m_last k) (m_depth k) d.

(** marker::insert, parse_tree.hpp:458-474. *)
Definition insert (k : marker) (child : addr) (m : memory) : option (marker * memory) :=
  match m_first k, m_last k with
  | None, _ => Some (Marker (m_unwind k) (m_prod k) (S (m_count k)) (Some child) (Some child) (m_depth k) (m_max k), m)
  | Some f, Some l =>
      match set_sibling l child m with
      | Some m => Some (Marker (m_unwind k) (m_prod k) (S (m_count k)) (Some f) (Some child) (m_depth k) (m_max k), m)
      | None => None
      end
  | Some _, None => None
  end.

(** marker::insert_list, parse_tree.hpp:475-493. *)
Definition insert_list (k : marker) (len : nat) (first last : option addr) (m : memory)
  : option (marker * memory) :=
  if len =? 0 then Some (k, m)
  else match m_first k, m_last k, first with
  | None, _, _ => Some (Marker (m_unwind k) (m_prod k) (m_count k + len) first last (m_depth k) (m_max k), m)
  | Some f, Some l, Some fi =>
      match set_sibling l fi m with
      | Some m => Some (Marker (m_unwind k) (m_prod k) (m_count k + len) (Some f) last (m_depth k) (m_max k), m)
      | None => None
      end
  | _, _, _ => None
  end.

(** marker::insert_children_into, parse_tree.hpp:495-521. *)
Definition insert_children_into (k : marker) (parent : addr) (m : memory) : option memory :=
  match m (plus parent 2) with
  | WCount 0 tok _ =>
      if m_count k =? 0 then Some m
      else
        let adj := opt_eqb (m_first k) (Some (plus parent 3)) in
        let m := if adj then m else write (plus parent 3) (WPtr (m_first k)) m in
        match m_last k with
        | None => None
        | Some l =>
            match set_parent l parent m with
            | Some m => Some (write (plus parent 2) (WCount (m_count k) tok adj) m)
            | None => None
            end
        end
  | _ => None
  end.

(** marker::update_size_depth, parse_tree.hpp:523-533. *)
Definition local_max (k : marker) : nat :=
  if (m_depth k =? m_max k) && (0 <? m_count k) then S (m_max k) else m_max k.
Definition update_size_depth (k : marker) (size max : nat) : nat * nat :=
  (size + m_count k, if max <? local_max k then local_max k else max).

Record builder := Builder {
  t_buf : buffer;
  t_root : addr;
  t_size : nat;
  t_depth : nat;
  t_cur : marker
}.
Definition mem_of (t : builder) : memory := b_mem (t_buf t).

(** The constructor, parse_tree.hpp:539-553, given the buffer of the old tree. *)
Definition start (b : buffer) (p : info) : option builder :=
  match allocate 3 (reset b) with
  | None => None
  | Some (r, b) =>
      let b := set_mem (put_production r (i_id p) (i_token p) (b_mem b)) b in
      Some (Builder b r 1 0 (new_marker (b_top b) 0 (Some r)))
  end.

(** start_production, parse_tree.hpp:583-603. *)
Definition start_production (p : info) (t : builder) : option (marker * builder) :=
  if i_transparent p then Some (t_cur t, t)
  else
    match allocate 3 (reserve 4 (t_buf t)) with
    | None => None
    | Some (a, b) =>
        let b := set_mem (put_production a (i_id p) (i_token p) (b_mem b)) b in
        Some (t_cur t, Builder b (t_root t) (t_size t) (t_depth t) (new_marker a (S (m_depth (t_cur t))) (Some a)))
    end.

(** [LEXY_PRECONDITION(_cur.prod || m.prod == _cur.prod)]. *)
Definition prod_pre (k : marker) (t : builder) : bool :=
  match m_prod (t_cur t) with Some _ => true | None => opt_eqb (m_prod k) None end.

(** finish_production, parse_tree.hpp:605-618. *)
Definition finish_production (k : marker) (t : builder) : option builder :=
  if negb (prod_pre k t) then None
  else if opt_eqb (m_prod k) (m_prod (t_cur t)) then Some t
  else
    let '(size, max) := update_size_depth (t_cur t) (t_size t) (m_max k) in
    match m_prod (t_cur t) with
    | None => None
    | Some a =>
        match insert_children_into (t_cur t) a (mem_of t) with
        | None => None
        | Some m =>
            match insert (with_max max k) a m with
            | None => None
            | Some (k, m) => Some (Builder (set_mem m (t_buf t)) (t_root t) size (t_depth t) k)
            end
        end
    end.

(** cancel_production, parse_tree.hpp:620-630. *)
Definition cancel_production (k : marker) (t : builder) : option builder :=
  if negb (prod_pre k t) then None
  else if opt_eqb (m_prod (t_cur t)) (m_prod k) then Some t
  else Some (Builder (unwind (m_unwind (t_cur t)) (t_buf t)) (t_root t) (t_size t) (t_depth t) k).

(** start_container, parse_tree.hpp:633-650: the pointer is allocated without a reserve. *)
Definition start_container (t : builder) : option (marker * builder) :=
  let cur := t_cur t in
  let pos := b_top (t_buf t) in
  let go b := Some (cur, Builder b (t_root t) (t_size t) (t_depth t) (new_marker pos (m_depth cur) None)) in
  match m_prod cur, m_count cur with
  | Some _, 0 =>
      match allocate 1 (t_buf t) with
      | None => None
      | Some (a, b) => go (set_mem (write a (WPtr None) (b_mem b)) b)
      end
  | _, _ => go (t_buf t)
  end.

(** set_container_production, parse_tree.hpp:652-688. *)
Definition set_container_production (p : info) (t : builder) : option builder :=
  match m_prod (t_cur t) with
  | Some _ => None
  | None =>
      if i_transparent p then Some t
      else
        match allocate 3 (reserve 4 (t_buf t)) with
        | None => None
        | Some (a, b) =>
            let b := set_mem (put_production a (i_id p) (i_token p) (b_mem b)) b in
            match allocate 1 b with
            | None => None
            | Some (q, b) =>
                let b := set_mem (write q (WPtr None) (b_mem b)) b in
                let cur := t_cur t in
                match insert (new_marker (m_unwind cur) (m_depth cur) None) a (b_mem b) with
                | None => None
                | Some (new, m) =>
                    match insert_children_into cur a m with
                    | None => None
                    | Some m =>
                        Some (Builder (set_mem m b) (t_root t) (t_size t + m_count cur) (t_depth t)
                                (with_max (S (local_max cur)) new))
                    end
                end
            end
        end
  end.

(** finish_container, parse_tree.hpp:690-704. *)
Definition finish_container (k : marker) (t : builder) : option builder :=
  match m_prod (t_cur t) with
  | Some _ => None
  | None =>
      let cur := t_cur t in
      match insert_list k (m_count cur) (m_first cur) (m_last cur) (mem_of t) with
      | None => None
      | Some (k, m) =>
          let '(_, max) := update_size_depth cur 0 (m_max k) in
          Some (Builder (set_mem m (t_buf t)) (t_root t) (t_size t) (t_depth t) (with_max max k))
      end
  end.

(** cancel_container, parse_tree.hpp:706-714. *)
Definition cancel_container (k : marker) (t : builder) : option builder :=
  match m_prod (t_cur t) with
  | Some _ => None
  | None => Some (Builder (unwind (m_unwind (t_cur t)) (t_buf t)) (t_root t) (t_size t) (t_depth t) k)
  end.

(** token_kind::ignore_if_empty, token.hpp:165-169. *)
Definition ignore_if_empty (k : tkind) : bool :=
  match k with KUnknown | KError | KWhitespace => true | _ => false end.

(** [last_child && last_child->as_token() && last_child->as_token()->kind == error]. *)
Definition ends_in_error (k : marker) (m : memory) : bool :=
  match m_last k with
  | Some l =>
      match type_of m l, token_kind m l with Some false, Some KError => true | _, _ => false end
  | None => false
  end.

(** token, parse_tree.hpp:717-743. *)
Definition add_token (k : tkind) (b e : nat) (t : builder) : option builder :=
  if ignore_if_empty k && (b =? e) then Some t
  else if match k with KError => true | _ => false end && ends_in_error (t_cur t) (mem_of t) then
    match m_last (t_cur t) with
    | None => None
    | Some l =>
        match update_end l e (mem_of t) with
        | None => None
        | Some m => Some (Builder (set_mem m (t_buf t)) (t_root t) (t_size t) (t_depth t) (t_cur t))
        end
    end
  else
    match allocate 3 (reserve 3 (t_buf t)) with
    | None => None
    | Some (a, buf) =>
        match insert (t_cur t) a (put_token a k b e (b_mem buf)) with
        | None => None
        | Some (cur, m) => Some (Builder (set_mem m buf) (t_root t) (t_size t) (t_depth t) cur)
        end
    end.

(** class parse_tree, parse_tree.hpp:337-413. *)
Record tree := Tree { p_buf : buffer; p_root : option addr; p_size : nat; p_depth : nat }.

(** finish, parse_tree.hpp:565-580; [b], [e]: the remaining input. *)
Definition finish (b e : nat) (t : builder) : option tree :=
  if opt_eqb (m_prod (t_cur t)) (Some (t_root t)) then
    match insert_children_into (t_cur t) (t_root t) (mem_of t) with
    | None => None
    | Some m =>
        let '(size, depth) := update_size_depth (t_cur t) (t_size t) (t_depth t) in
        match allocate 3 (reserve 3 (set_mem m (t_buf t))) with
        | None => None
        | Some (a, buf) =>
            match set_sibling (t_root t) a (put_token a KEof b e (b_mem buf)) with
            | None => None
            | Some m => Some (Tree (set_mem m buf) (Some (t_root t)) size depth)
            end
        end
    end
  else None.

(** *** Calls on a builder, and the markers that were handed out and not yet given back.
    Markers are returned in the opposite order, each to a function of its kind; this is what the
    user has to do (docs/content/reference/parse_tree.adoc:173-214) and what parse_as_tree does. *)
Inductive call :=
| CStart (p : info) | CFinish | CCancel
| COpen | CSet (p : info) | CClose | CDrop
| CToken (k : tkind) (b e : nat).

Definition do_call (c : call) (x : builder * list marker) : option (builder * list marker) :=
  let (t, ks) := x in
  let pop f := match ks with k :: ks => match f k with Some t => Some (t, ks) | None => None end | [] => None end in
  let push r := match r with Some (k, t) => Some (t, k :: ks) | None => None end in
  let same r := match r with Some t => Some (t, ks) | None => None end in
  match c with
  | CStart p => push (start_production p t)
  | CFinish => pop (fun k => finish_production k t)
  | CCancel => pop (fun k => cancel_production k t)
  | COpen => push (start_container t)
  | CSet p => same (set_container_production p t)
  | CClose => pop (fun k => finish_container k t)
  | CDrop => pop (fun k => cancel_container k t)
  | CToken k b e => same (add_token k b e t)
  end.

Fixpoint do_calls (cs : list call) (x : builder * list marker) : option (builder * list marker) :=
  match cs with
  | [] => Some x
  | c :: cs => match do_call c x with Some x => do_calls cs x | None => None end
  end.

(** A whole tree built in the memory of an old one. *)
Definition build (old : buffer) (root : info) (cs : list call) (b e : nat) : option tree :=
  match start old root with
  | None => None
  | Some t => match do_calls cs (t, []) with Some (t, []) => finish b e t | _ => None end
  end.

End Capacity.

(** ** Navigation: _pt_node, parse_tree.hpp:849-1091; every function gets the node's address. *)
Definition is_token (m : memory) (a : addr) : bool :=
  match type_of m a with Some false => true | _ => false end.

(** node_kind::is_root, parse_tree.hpp:767-773. *)
Definition is_root (m : memory) (a : addr) : option bool :=
  match next_node m a with
  | Some (Some n) => match next_node m n with Some x => Some (opt_eqb x None) | None => None end
  | _ => None
  end.

(** parent, parse_tree.hpp:863-874. *)
Fixpoint up (fuel : nat) (m : memory) (a : addr) : option addr :=
  match fuel with
  | O => None
  | S fuel =>
      match link_of m a with
      | Some (Some n, _, false) => up fuel m n
      | Some (Some n, _, true) => Some n
      | _ => None
      end
  end.
Definition parent (fuel : nat) (m : memory) (a : addr) : option addr :=
  match is_root m a with
  | Some true => Some a
  | Some false => up fuel m a
  | None => None
  end.

(** children_range, parse_tree.hpp:876-943: from [begin] until [end], the node itself. *)
Definition children_begin (m : memory) (a : addr) : option addr :=
  match type_of m a with
  | Some true => match first_child m a with Some (Some c) => Some c | Some None => Some a | None => None end
  | Some false => Some a
  | None => None
  end.
Fixpoint children_from (fuel : nat) (m : memory) (stop cur : addr) : option (list addr) :=
  if addr_eqb cur stop then Some []
  else
    match fuel with
    | O => None
    | S fuel =>
        match next_node m cur with
        | Some (Some n) =>
            match children_from fuel m stop n with Some l => Some (cur :: l) | None => None end
        | _ => None
        end
    end.
Definition children (fuel : nat) (m : memory) (a : addr) : option (list addr) :=
  match children_begin m a with Some c => children_from fuel m a c | None => None end.
Definition children_size (m : memory) (a : addr) : option nat :=
  match type_of m a with Some true => child_count m a | Some false => Some 0 | None => None end.

(** sibling_range, parse_tree.hpp:950-1009. *)
Definition sibling_next (m : memory) (a : addr) : option addr :=
  match link_of m a with
  | Some (Some n, _, true) =>
      match type_of m n with Some true => match first_child m n with Some x => x | None => None end | _ => None end
  | Some (Some n, _, false) => Some n
  | _ => None
  end.
Fixpoint siblings_from (fuel : nat) (m : memory) (stop cur : addr) : option (list addr) :=
  if addr_eqb cur stop then Some []
  else
    match fuel with
    | O => None
    | S fuel =>
        match sibling_next m cur with
        | Some n => match siblings_from fuel m stop n with Some l => Some (cur :: l) | None => None end
        | None => None
        end
    end.
Definition siblings (fuel : nat) (m : memory) (a : addr) : option (list addr) :=
  match sibling_next m a with Some c => siblings_from fuel m a c | None => None end.

(** is_last_child, parse_tree.hpp:1016-1020. *)
Definition is_last_child (m : memory) (a : addr) : option bool := next_role m a.

(** position, parse_tree.hpp:1022-1033. *)
Fixpoint position (fuel : nat) (m : memory) (a : addr) : option nat :=
  match fuel with
  | O => None
  | S fuel =>
      match type_of m a with
      | Some true => match first_child m a with Some (Some c) => position fuel m c | _ => None end
      | Some false => token_begin m a
      | None => None
      end
  end.

(** lexeme, parse_tree.hpp:1035-1041; an empty lexeme for productions. *)
Definition lexeme (m : memory) (a : addr) : option (option (nat * nat)) :=
  match type_of m a with
  | Some false => match token_begin m a, token_end m a with Some b, Some e => Some (Some (b, e)) | _, _ => None end
  | Some true => Some None
  | None => None
  end.

(** covering_lexeme, parse_tree.hpp:1043-1063. *)
Fixpoint next_outside (fuel : nat) (m : memory) (a : addr) : option addr :=
  match fuel with
  | O => None
  | S fuel =>
      match link_of m a with
      | Some (Some n, _, false) => Some n
      | Some (Some n, _, true) => next_outside fuel m n
      | _ => None
      end
  end.
Definition covering_lexeme (fuel : nat) (m : memory) (a : addr) : option (nat * nat) :=
  match type_of m a with
  | Some false => match token_begin m a, token_end m a with Some b, Some e => Some (b, e) | _, _ => None end
  | Some true =>
      match position fuel m a, next_outside fuel m a with
      | Some b, Some n => match position fuel m n with Some e => Some (b, e) | None => None end
      | _, _ => None
      end
  | None => None
  end.

(** ** traverse_range, parse_tree.hpp:1103-1216 *)
Inductive tev := Enter | Exit | Leaf.
Definition tev_eqb (a b : tev) : bool :=
  match a, b with Enter, Enter | Exit, Exit | Leaf, Leaf => true | _, _ => false end.
Definition titer : Type := tev * addr.
Definition titer_eqb (x y : titer) : bool := tev_eqb (fst x) (fst y) && addr_eqb (snd x) (snd y).

(** The event for a node that is reached from the left: [as_token() ? leaf : enter]. *)
Definition arrive (m : memory) (a : addr) : option titer :=
  match type_of m a with Some false => Some (Leaf, a) | Some true => Some (Enter, a) | None => None end.

(** iterator::increment, parse_tree.hpp:1124-1159. *)
Definition tnext (m : memory) (x : titer) : option titer :=
  match fst x with
  | Enter =>
      match first_child m (snd x) with
      | Some (Some c) => arrive m c
      | Some None => Some (Exit, snd x)
      | None => None
      end
  | _ =>
      match link_of m (snd x) with
      | Some (Some n, _, true) => Some (Exit, n)
      | Some (Some n, _, false) => arrive m n
      | _ => None
      end
  end.

Fixpoint tfrom (fuel : nat) (m : memory) (stop cur : titer) : option (list titer) :=
  if titer_eqb cur stop then Some []
  else
    match fuel with
    | O => None
    | S fuel =>
        match tnext m cur with
        | Some n => match tfrom fuel m stop n with Some l => Some (cur :: l) | None => None end
        | None => None
        end
    end.

(** traverse_range(node), parse_tree.hpp:1192-1210. *)
Definition traverse (fuel : nat) (m : memory) (a : addr) : option (list titer) :=
  match type_of m a with
  | Some false =>
      match tnext m (Leaf, a) with Some e => tfrom fuel m e (Leaf, a) | None => None end
  | Some true =>
      match tnext m (Exit, a) with Some e => tfrom fuel m e (Enter, a) | None => None end
  | None => None
  end.

(** remaining_input, parse_tree.hpp:399-406. *)
Definition remaining_input (t : tree) : option (nat * nat) :=
  match p_root t with
  | None => None
  | Some r =>
      match next_node (b_mem (p_buf t)) r with
      | Some (Some a) =>
          match token_begin (b_mem (p_buf t)) a, token_end (b_mem (p_buf t)) a with
          | Some b, Some e => Some (b, e)
          | _, _ => None
          end
      | _ => None
      end
  end.

(** clear, parse_tree.hpp:367-371. *)
Definition clear (t : tree) : tree := Tree (reset (p_buf t)) None (p_size t) (p_depth t).

(** ** Node kinds: _pt_node_kind, parse_tree.hpp:756-845 *)
(** operator== of token_kind, token.hpp:171-178. *)
Definition tkind_eqb (a b : tkind) : bool :=
  match a, b with
  | KUnknown, KUnknown | KError, KError | KWhitespace, KWhitespace | KPosition, KPosition
  | KEof, KEof | KIdentifier, KIdentifier => true
  | KUser m, KUser n => m =? n
  | _, _ => false
  end.

Definition production_id (m : memory) (a : addr) : option nat :=
  match m (plus a 1) with WId id => Some id | _ => None end.

(** is_token, is_production, is_token_production. *)
Definition kind_is_token (m : memory) (a : addr) : bool := is_token m a.
Definition kind_is_production (m : memory) (a : addr) : bool :=
  match type_of m a with Some true => true | _ => false end.
Definition kind_is_token_production (m : memory) (a : addr) : bool :=
  kind_is_production m a && match m (plus a 2) with WCount _ t _ => t | _ => false end.

(** [operator==(node_kind, node_kind)], parse_tree.hpp:793-799.  [as_production] of a token is
    null, reading through it is undefined: [None]. *)
Definition as_production (m : memory) (a : addr) : option addr :=
  if kind_is_production m a then Some a else None.
Definition kind_eq (m : memory) (a b : addr) : option bool :=
  if kind_is_token m a && kind_is_token m b then
    match token_kind m a, token_kind m b with Some x, Some y => Some (tkind_eqb x y) | _, _ => None end
  else
    match as_production m a, as_production m b with
    | Some a, Some b =>
        match production_id m a, production_id m b with Some x, Some y => Some (x =? y) | _, _ => None end
    | _, _ => None
    end.

(** [operator==(node_kind, token_kind)], parse_tree.hpp:805-811. *)
Definition kind_eq_token (m : memory) (a : addr) (k : tkind) : option bool :=
  if kind_is_token m a then
    match token_kind m a with Some x => Some (tkind_eqb x k) | None => None end
  else Some false.

(** [operator==(node_kind, production_info)], parse_tree.hpp:825-828. *)
Definition kind_eq_production (m : memory) (a : addr) (id : nat) : option bool :=
  if kind_is_production m a then
    match production_id m a with Some x => Some (x =? id) | None => None end
  else Some false.

(** parse_tree::empty, size, depth, parse_tree.hpp:352-366; depth of an empty tree violates a
    precondition. *)
Definition tree_empty (t : tree) : bool := match p_root t with None => true | Some _ => false end.
Definition tree_size (t : tree) : nat := p_size t.
Definition tree_depth (t : tree) : option nat := if tree_empty t then None else Some (p_depth t).

(** What a traversal shows of a node: event, kind and lexeme. *)
Inductive shown :=
| SEnter (id : nat) (token : bool)
| SExit (id : nat) (token : bool)
| SLeaf (k : tkind) (b e : nat).
Definition show (m : memory) (x : titer) : option shown :=
  let a := snd x in
  match fst x, kind_is_token m a, kind_is_production m a with
  | Leaf, true, false =>
      match token_kind m a, lexeme m a with Some k, Some (Some (b, e)) => Some (SLeaf k b e) | _, _ => None end
  | Enter, false, true =>
      match production_id m a with Some id => Some (SEnter id (kind_is_token_production m a)) | None => None end
  | Exit, false, true =>
      match production_id m a with Some id => Some (SExit id (kind_is_token_production m a)) | None => None end
  | _, _, _ => None
  end.
