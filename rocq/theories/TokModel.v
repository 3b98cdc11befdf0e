(** Model of token kinds.
    Source: include/lexy/token.hpp, the predefined kinds in include/lexy/grammar.hpp. *)
From Coq Require Import ZArith.
From Verif Require Import Prelude.
Open Scope Z_scope.

(** The type of user-defined kinds ([_underlying_type], token.hpp:103): [int], or an
    enumeration with a fixed underlying type; its number of bits and whether it is signed.
    Enumerations without a fixed underlying type are not modelled. *)
Record utype := UType { u_bits : Z; u_signed : bool }.
Definition int_type : utype := UType 32 true.
Definition u_min (t : utype) : Z := if u_signed t then - 2 ^ (u_bits t - 1) else 0.
Definition u_max (t : utype) : Z := if u_signed t then 2 ^ (u_bits t - 1) - 1 else 2 ^ u_bits t - 1.
(** Conversion of an integer to the type: the value of the range that is equal modulo
    [2 ^ bits]. *)
Definition u_conv (t : utype) (z : Z) : Z := (z - u_min t) mod 2 ^ u_bits t + u_min t.

(** grammar.hpp:82-98 [predefined_token_kind]. *)
Inductive predefined := PUnknown | PError | PWhitespace | PAny | PLiteral | PPosition | PEof
                      | PIdentifier | PDigits.
Definition all_predefined : list predefined :=
  [PUnknown; PError; PWhitespace; PAny; PLiteral; PPosition; PEof; PIdentifier; PDigits].
Definition p_value (p : predefined) : Z :=
  match p with
  | PUnknown => 65535 | PError => 65534 | PWhitespace => 65533 | PAny => 65532
  | PLiteral => 65531 | PPosition => 65530 | PEof => 65529 | PIdentifier => 65528 | PDigits => 65527
  end.
Definition smallest_predefined : Z := p_value PDigits.

(** The class stores [std::uint_least16_t _value], of 16 bits. *)
Definition kind := Z.

(** token.hpp:121-125: the constructors for a predefined kind, and by default. *)
Definition kind_predefined (p : predefined) : kind := p_value p.
Definition kind_default : kind := kind_predefined PUnknown.
(** token.hpp:128-133: the constructor for a user-defined kind; [None] if the precondition is
    violated. *)
Definition kind_user (t : utype) (value : Z) : option kind :=
  if (u_conv t 0 <=? value) && (value <? u_conv t smallest_predefined)
  then Some (value mod 2 ^ 16) else None.

(** token.hpp:154-168. *)
Definition kind_bool (k : kind) : bool := negb (k =? p_value PUnknown).
Definition is_predefined (k : kind) : bool := smallest_predefined <=? k.
Definition ignore_if_empty (k : kind) : bool :=
  (k =? p_value PUnknown) || (k =? p_value PError) || (k =? p_value PWhitespace).
(** token.hpp:182-185 [get]. *)
Definition kind_get (t : utype) (k : kind) : Z := u_conv t k.
(** token.hpp:188-195. *)
Definition kind_eq (k k' : kind) : bool := k =? k'.
(** token.hpp:198-205; [from_raw] uses the private constructor l.208 without a precondition. *)
Definition to_raw (k : kind) : Z := k.
Definition from_raw (r : Z) : kind := r.

(** token.hpp:170-180 [name] and grammar.hpp:100-133 [token_kind_name].  [user_name] is the
    function found by ADL; without one it is "token".  The strings are the constructors, with
    [Unreachable] for the empty string at the end of the switch. *)
Inductive kname := NToken | NErrorToken | NWhitespace | NAny | NLiteral | NPosition | NEof
                 | NIdentifier | NDigits | Unreachable | NUser (z : Z).
Definition predefined_name (value : Z) : kname :=
  if value =? p_value PUnknown then NToken
  else if value =? p_value PError then NErrorToken
  else if value =? p_value PWhitespace then NWhitespace
  else if value =? p_value PAny then NAny
  else if value =? p_value PLiteral then NLiteral
  else if value =? p_value PPosition then NPosition
  else if value =? p_value PEof then NEof
  else if value =? p_value PIdentifier then NIdentifier
  else if value =? p_value PDigits then NDigits
  else Unreachable.
Definition kind_name (t : utype) (user_name : Z -> kname) (k : kind) : kname :=
  if is_predefined k then predefined_name k else user_name (kind_get t k).

(** ** The kind of a token rule.  Rules (more exactly their [token_type]) are numbered. *)

(** token.hpp:18-61 [_tk_map], l.62-77 [_tk_map_empty]. *)
Definition tk_map := list (nat * Z).
Definition tk_empty : tk_map := [].
Definition tk_add (m : tk_map) (k : Z) (rule : nat) : tk_map := m ++ [(rule, k)].
Fixpoint tk_lookup (m : tk_map) (rule : nat) : option Z :=
  match m with
  | [] => None
  | (r, k) :: m' => if (rule =? r)%nat then Some k else tk_lookup m' rule
  end.

(** [token_kind_of<Rule>] (grammar.hpp:135-140 and its specialisations): a predefined kind
    (unknown by default), or the one given by [.kind], which is compatible with the type of
    this [token_kind] (token.hpp:105-116) or not. *)
Inductive internal := IPredefined (p : predefined) | IUser (value : Z) | IIncompatible.

(** token.hpp:136-151: the constructor from a rule. *)
Definition kind_of_rule (t : utype) (m : tk_map) (rule : nat) (i : internal) : option kind :=
  match match tk_lookup m rule with
        | Some v => kind_user t v
        | None => Some (kind_predefined PUnknown)
        end with
  | None => None
  | Some k =>
    if kind_bool k then Some k
    else
      match i with
      | IPredefined p => Some (kind_predefined p)
      | IUser v => kind_user t v
      | IIncompatible => Some k
      end
  end.
