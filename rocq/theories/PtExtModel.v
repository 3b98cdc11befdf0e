(** The algorithms of lexy_ext/parse_tree_algorithm.hpp.

    An iterator of a range is modelled by the elements it has still to visit, so that the loops
    are the loops of the source: the elements of a traverse_range are those of
    [PtModel.traverse], those of a children_range those of [PtModel.children]. *)
From Verif Require Import Prelude RuleModel PtModel.
Close Scope N_scope.

(** [while (_cur != _end && !pred( *_cur)) ++_cur;], parse_tree_algorithm.hpp:47-50, 67-69,
    170-172, 188-190. *)
Fixpoint advance {A} (pred : A -> bool) (cur : list A) : list A :=
  match cur with
  | [] => []
  | x :: r => if pred x then cur else advance pred r
  end.

(** A for loop over such a range: start at the iterator of the constructor, [++] until the end.
    [fuel]: at least the number of elements. *)
Fixpoint visit {A} (pred : A -> bool) (fuel : nat) (cur : list A) : list A :=
  match fuel, cur with
  | S fuel, x :: r => x :: visit pred fuel (advance pred r)
  | _, _ => []
  end.
Definition range {A} (pred : A -> bool) (all : list A) : list A :=
  visit pred (length all) (advance pred all).

Definition is_leaf (x : titer) : bool := match fst x with Leaf => true | _ => false end.

(** tokens, parse_tree_algorithm.hpp:14-103. *)
Definition tokens (fuel : nat) (m : memory) (node : addr) : option (list addr) :=
  match traverse fuel m node with
  | Some l => Some (map snd (range is_leaf l))
  | None => None
  end.

(** find_covering_node, parse_tree_algorithm.hpp:107-131.  [None]: the position is out of bounds
    (a precondition) or a node cannot be read. *)
Fixpoint covering (m : memory) (position : nat) (l : list addr) : option addr :=
  match l with
  | [] => None
  | t :: l =>
      match lexeme m t with
      | Some (Some (_, e)) => if position <? e then Some t else covering m position l
      | _ => None
      end
  end.
Definition find_covering_node (fuel : nat) (m : memory) (root : addr) (position : nat) : option addr :=
  match tokens fuel m root with Some l => covering m position l | None => None end.

(** children with a predicate, parse_tree_algorithm.hpp:218-239. *)
Definition children_if (fuel : nat) (m : memory) (node : addr) (pred : addr -> bool) : option (list addr) :=
  match children fuel m node with Some l => Some (range pred l) | None => None end.
Definition has_kind (m : memory) (k : tkind) (n : addr) : bool :=
  match kind_eq_token m n k with Some b => b | None => false end.
Definition has_production (m : memory) (id : nat) (n : addr) : bool :=
  match kind_eq_production m n id with Some b => b | None => false end.

(** child, parse_tree_algorithm.hpp:241-253. *)
Definition child_if (fuel : nat) (m : memory) (node : addr) (pred : addr -> bool) : option (option addr) :=
  match children_if fuel m node pred with
  | Some [] => Some None
  | Some (x :: _) => Some (Some x)
  | None => None
  end.

(** node_position, parse_tree_algorithm.hpp:262-277; [Some None]: a default constructed iterator. *)
Definition node_position (fuel : nat) (m : memory) (node : addr) : option (option nat) :=
  let begin_of a := match lexeme m a with Some (Some (b, _)) => Some (Some b) | _ => None end in
  match child_if fuel m node (has_kind m KPosition) with
  | Some (Some a) => begin_of a
  | Some None =>
      match tokens fuel m node with
      | Some [] => Some None
      | Some (t :: _) => begin_of t
      | None => None
      end
  | None => None
  end.
