(** Model of the visualization of parse trees.  Source: include/lexy/visualize.hpp:496-600.

    Output iterators as in [VisModel], trees as in [PtModel].  The names of productions and token
    kinds are parameters; [inp] are the units of the input the tree refers to. *)
From Coq Require Import String Ascii.
From Verif Require Import Prelude CodecModel LitModel RuleModel PtModel VisModel.
Close Scope string_scope.
Open Scope N_scope.

(** visualize.hpp:42. *)
Definition max_tree_depth_limit : nat := 32.

(** visualize.hpp:499-506 [label_t]. *)
Record labels := Labels { l_space : list N; l_line : list N; l_end : list N; l_branch : list N }.
Definition label_of (opts : options) : labels :=
  if is_set opts visualize_use_unicode then Labels (str "   ") (str "│  ") (str "└──") (str "├──")
  else Labels (str "  ") (str "  ") (str "- ") (str "- ").

Section Out.
Context {W I : Type} (put : W -> I -> N -> W * I).
Notation out := (W * I)%type.
Notation write_str := (write_str put).
Notation write_color := (write_color put).
Variables (token_name : tkind -> list N) (production_name : nat -> list N).
Variables (e : lexeme_encoding) (inp : list N) (opts : options).

(** visualize.hpp:520-527, the loop of [write_prefix] from [i] on, [n] more times.  [None]: the
    array is read out of bounds. *)
Fixpoint write_lines (label : labels) (is_last_child : list bool) (o : out) (i n : nat) : option out :=
  match n with
  | O => Some o
  | S n' =>
    match nth_error is_last_child i with
    | None => None
    | Some true => write_lines label is_last_child (write_str o (l_space label)) (S i) n'
    | Some false => write_lines label is_last_child (write_str o (l_line label)) (S i) n'
    end
  end.
(** visualize.hpp:511-537 [write_prefix]. *)
Definition write_prefix (is_last_child : list bool) (o : out) (cur_depth : nat) (cur_is_last : bool) : option out :=
  let label := label_of opts in
  if (cur_depth =? 0)%nat then Some o
  else
    let o := write_color o opts Faint [] in
    match write_lines label is_last_child o 1 (cur_depth - 1) with
    | None => None
    | Some o =>
      let o := write_str o (if cur_is_last then l_end label else l_branch label) in
      Some (write_color o opts Reset [])
    end.

(** [is_last_child[i] = v]; [None]: out of bounds. *)
Fixpoint store (l : list bool) (i : nat) (v : bool) : option (list bool) :=
  match l, i with
  | [], _ => None
  | _ :: l', O => Some (v :: l')
  | x :: l', S i' => match store l' i' v with Some l'' => Some (x :: l'') | None => None end
  end.

(** [node.kind().name()], parse_tree.hpp:779-790. *)
Definition kind_name (m : memory) (a : addr) : option (list N) :=
  match type_of m a with
  | Some true => match production_id m a with Some id => Some (production_name id) | None => None end
  | Some false => match token_kind m a with Some k => Some (token_name k) | None => None end
  | None => None
  end.
(** [node.lexeme()]; of a production it is empty. *)
Definition lexeme_units (m : memory) (a : addr) : option (list N) :=
  match lexeme m a with
  | Some (Some (b, e)) => Some (firstn (e - b) (skipn b inp))
  | Some None => Some []
  | None => None
  end.

(** The state of the loop: iterator, array, depth. *)
Definition tstate : Type := (out * list bool * nat)%type.

(** visualize.hpp:540-596: one iteration. *)
Definition tree_step (m : memory) (s : tstate) (x : titer) : option tstate :=
  let '(o, is_last_child, cur_depth) := s in
  let (event, node) := x in
  match PtModel.is_last_child m node with
  | None => None
  | Some last_child =>
    match event with
    | Enter =>
      if (cur_depth <=? N.to_nat (vo_max_tree_depth opts))%nat then
        match write_prefix is_last_child o cur_depth last_child, kind_name m node with
        | Some o, Some name =>
          let o := write_color o opts Bold [] in
          let o := write_str o name in
          let o := write_color o opts Reset [] in
          if (cur_depth =? N.to_nat (vo_max_tree_depth opts))%nat then
            let o := write_str o (str ": ") in
            let o := write_ellipsis put o opts in
            let o := write_str o [0x0A] in
            Some (o, is_last_child, S cur_depth)
          else
            let o := write_str o (str ":" ++ [0x0A]) in
            match store is_last_child cur_depth last_child with
            | Some is_last_child => Some (o, is_last_child, S cur_depth)
            | None => None
            end
        | _, _ => None
        end
      else Some (o, is_last_child, S cur_depth)
    | Exit => Some (o, is_last_child, pred cur_depth)
    | Leaf =>
      if (cur_depth <=? N.to_nat (vo_max_tree_depth opts))%nat then
        match write_prefix is_last_child o cur_depth last_child, kind_name m node, lexeme_units m node with
        | Some o, Some name, Some units =>
          let o := write_color o opts Bold [] in
          let o := write_str o name in
          let o := write_color o opts Reset [] in
          let o :=
            if match units with [] => true | _ => false end then o
            else visualize_lexeme put (write_str o (str ": ")) e units (set_flag opts visualize_space) in
          Some (write_str o [0x0A], is_last_child, cur_depth)
        | _, _, _ => None
        end
      else Some (o, is_last_child, cur_depth)
    end
  end.
Fixpoint tree_steps (m : memory) (s : tstate) (l : list titer) : option tstate :=
  match l with
  | [] => Some s
  | x :: l' => match tree_step m s x with Some s => tree_steps m s l' | None => None end
  end.

(** visualize.hpp:496-600 [visualize_to(tree)].  [None]: a precondition is violated, or memory is
    read that cannot be.  The fuel is for walking through the tree. *)
Definition visualize_tree (fuel : nat) (o : out) (t : tree) : option out :=
  if (max_tree_depth_limit <? N.to_nat (vo_max_tree_depth opts))%nat then None          (* l.509 *)
  else
    match (match p_root t with None => Some [] | Some r => traverse fuel (b_mem (p_buf t)) r end) with
    | None => None
    | Some l =>
      match tree_steps (b_mem (p_buf t)) (o, repeat false max_tree_depth_limit, O) l with
      | Some (o, _, _) => Some o
      | None => None
      end
    end.
End Out.
