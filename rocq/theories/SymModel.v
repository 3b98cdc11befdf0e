(** Model of symbol tables and the rule [dsl::symbol].
    Source: include/lexy/dsl/symbol.hpp. *)
From Verif Require Import Prelude CodecModel LitModel ClassModel TextModel.
Open Scope N_scope.

(** symbol.hpp:17-241 [_symbol_table<T, CaseFolding, Strings...>]: the names [Strings...] with
    the data [_data], which have the same size, as one list. *)
Record table (V : Type) := Table { tb_fold : folding; tb_entries : list (list N * V) }.
Arguments Table {V}. Arguments tb_fold {V}. Arguments tb_entries {V}.

Section Table.
Context {V : Type}.

(** symbol.hpp:243-244 [symbol_table<T>], the empty table. *)
Definition table_empty : table V := Table NoFold [].
(** symbol.hpp:49-57 [map] and the constructor l.225-230. *)
Definition table_map (t : table V) (name : list N) (value : V) : table V :=
  Table (tb_fold t) (tb_entries t ++ [(name, value)]).
(** symbol.hpp:42-47 [case_folding]. *)
Definition table_folding (t : table V) (f : folding) : table V := Table f (tb_entries t).
(** symbol.hpp:90-93 [size]. *)
Definition table_size (t : table V) : nat := length (tb_entries t).

(** symbol.hpp:211-220 [_build_trie]: the literals inserted and the values of their nodes. *)
Fixpoint indexed (idx : N) (es : list (list N * V)) : list literal :=
  match es with
  | [] => []
  | (name, _) :: es' => Literal name idx None :: indexed (idx + 1) es'
  end.

(** symbol.hpp:153-176 [key_index]: [None] is the default constructed key (an index that no
    table is large enough to have); the conversion to bool. *)
Definition key_valid (t : table V) (k : option nat) : bool :=
  match k with Some i => (i <? table_size t)%nat | None => false end.

Variable fold : N -> N.      (* the Unicode case folding table, see [LitModel] *)

(** symbol.hpp:178-189 [try_parse]: the key and the position of the reader afterwards.  The key
    [None] is the default constructed key. *)
Inductive found := FoundFuel | Found (key : option nat) (end_ : nat).
Definition table_try (E : lenc) (t : table V) (inp : list N) (pos : nat) : found :=
  match set_try fold (tb_fold t) E (indexed 0 (tb_entries t)) inp pos with
  | NoFuel => FoundFuel
  | Match v p => Found (option_map N.to_nat v) p
  end.

(** symbol.hpp:191-200 [parse(input)].  [Some None] is the default constructed key, [None] out
    of fuel. *)
Definition table_parse (E : lenc) (t : table V) (inp : list N) : option (option nat) :=
  match table_try E t inp 0 with
  | FoundFuel => None
  | Found key p => if at_eof E inp p then Some key else Some None
  end.

(** symbol.hpp:202-206 [operator[]]; [None] if the precondition is violated. *)
Definition table_get (t : table V) (key : option nat) : option V :=
  match key with
  | Some i => option_map snd (nth_error (tb_entries t) i)
  | None => None
  end.

(** symbol.hpp:95-150: iterators are an index.  [None]: a violated precondition, or past the
    end of the arrays. *)
Definition it_begin (t : table V) : nat := 0.
Definition it_end (t : table V) : nat := table_size t.
Definition it_deref (t : table V) (i : nat) : option (list N * V) := nth_error (tb_entries t) i.
Definition it_increment (t : table V) (i : nat) : option nat :=
  if (i =? table_size t)%nat then None else Some (S i).
Definition it_decrement (t : table V) (i : nat) : option nat :=
  match i with O => None | S i' => Some i' end.

(** [for (auto entry : table)]: [None] is a violated precondition or out of fuel. *)
Fixpoint table_walk (fuel : nat) (t : table V) (i : nat) : option (list (list N * V)) :=
  match fuel with
  | O => None
  | S fuel' =>
    if (i =? it_end t)%nat then Some []
    else
      match it_deref t i, it_increment t i with
      | Some x, Some i' => option_map (cons x) (table_walk fuel' t i')
      | _, _ => None
      end
  end.
Definition table_iterate (t : table V) : option (list (list N * V)) :=
  table_walk (S (table_size t)) t (it_begin t).

(** ** The rules.  The reader is the list of the remaining units, positions are relative to it. *)

(** What a symbol rule does: it consumes [n] units as one token and produces the value; it
    raises an error (unknown symbol, or the one of the user) with a range; or the error of the
    token rule.  As a branch, [SymNo] is a branch not taken.  [SymBadKey] is a violated
    precondition of [operator[]]. *)
Inductive sym_result :=
| SymFuel | SymBadKey
| SymValue (n : nat) (value : V)
| SymUnknown (b e : nat)
| SymTokenError
| SymNo.
Definition sym_value (t : table V) (key : option nat) (n : nat) : sym_result :=
  match table_get t key with Some v => SymValue n v | None => SymBadKey end.

(** symbol.hpp:268-312 [_sym<Table, Token, Tag>::bp]: [try_parse] and [finish] before the
    whitespace.  [token rest] is [try_parse] of the token rule. *)
Definition sym_token_try (E : lenc) (t : table V) (token : list N -> tres) (rest : list N)
  : sym_result :=
  match token rest with
  | TOut => SymFuel
  | TNo => SymNo
  | TYes n =>
    match table_parse E t (firstn n rest) with
    | None => SymFuel
    | Some key => if key_valid t key then sym_value t key n else SymNo
    end
  end.

(** symbol.hpp:314-349 [p]: [_cap<Token>] (capture.hpp:50-84, see C65), whose error is the one
    of the token, and [_cont].  If whitespace skipping follows the token, it comes before the
    look-up, whose result does not depend on it. *)
Definition sym_token_parse (E : lenc) (t : table V) (token : list N -> tres) (rest : list N)
  : sym_result :=
  match token rest with
  | TOut => SymFuel
  | TNo => SymTokenError
  | TYes n =>
    match table_parse E t (firstn n rest) with
    | None => SymFuel
    | Some key => if key_valid t key then sym_value t key n else SymUnknown 0 n
    end
  end.

(** symbol.hpp:362-401 [_sym<Table, _idp<L, T>, Tag>::bp]. *)
Definition sym_id_try (E : lenc) (t : table V) (lead trail : cclass) (rest : list N) : sym_result :=
  match table_try E t rest 0 with
  | FoundFuel => SymFuel
  | Found key n =>
    if key_valid t key then
      match class_try E trail (skipn n rest) with
      | Some _ => SymNo
      | None => sym_value t key n
      end
    else SymNo
  end.

(** symbol.hpp:403-443 [p]. *)
Definition sym_id_parse (E : lenc) (t : table V) (lead trail : cclass) (rest : list N) : sym_result :=
  match table_try E t rest 0 with
  | FoundFuel => SymFuel
  | Found key n =>
    if negb (key_valid t key) ||
       match class_try E trail (skipn n rest) with Some _ => true | None => false end
    then
      match pattern_try E lead trail rest with
      | TOut => SymFuel
      | TNo => SymTokenError
      | TYes m => SymUnknown 0 m
      end
    else sym_value t key n
  end.

(** symbol.hpp:453-491 [_sym<Table, void, Tag>::bp]. *)
Definition sym_void_try (E : lenc) (t : table V) (rest : list N) : sym_result :=
  match table_try E t rest 0 with
  | FoundFuel => SymFuel
  | Found key n => if key_valid t key then sym_value t key n else SymNo
  end.
(** symbol.hpp:493-512 [p]: the error is at the position, an empty range. *)
Definition sym_void_parse (E : lenc) (t : table V) (rest : list N) : sym_result :=
  match sym_void_try E t rest with
  | SymNo => SymUnknown 0 0
  | r => r
  end.
End Table.
Arguments sym_result : clear implicits.
