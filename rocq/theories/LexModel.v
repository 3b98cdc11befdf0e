(** Lexemes and the algorithms on the iterators of an input.
    Source: include/lexy/lexeme.hpp, include/lexy/_detail/iterator.hpp.

    An iterator is a position in the text [text] of the input; the position behind the last unit is
    the end.  Every algorithm exists twice in the code, for iterators with [-] ([RA], pointers) and
    for those that can only be incremented and compared ([FW]); [if constexpr] selects one.
    Incrementing the end, adding beyond the end and dereferencing the end are undefined.
    Simplification: the iterators of a text are totally ordered positions; iterators of other
    objects, and what a user's iterator does besides, are not represented. *)
From Verif Require Import Prelude.
Close Scope N_scope.

Inductive out (A : Type) :=
| Ok (a : A)
| Undefined
| Assertion.   (* LEXY_PRECONDITION *)
Arguments Ok {A} a. Arguments Undefined {A}. Arguments Assertion {A}.

Inductive category := RA | FW.

(** std::size_t and unsigned have 64 and 32 bits. *)
Definition wrap64 (n : N) : N := (n mod 2 ^ 64)%N.
Definition wrap32 (n : N) : N := (n mod 2 ^ 32)%N.

Section Text.
Variable text : list N.

Definition deref (it : nat) : out N :=
  match nth_error text it with Some u => Ok u | None => Undefined end.

(** [static_cast<std::size_t>(end - begin)], iterator.hpp:26, lexeme.hpp:62. *)
Definition distance (b e : nat) : N := Z.to_N ((Z.of_nat e - Z.of_nat b) mod 2 ^ 64).

(** [iter + n] of a random access iterator. *)
Definition plus (it : nat) (n : N) : out nat :=
  if (N.of_nat it + n <=? N.of_nat (length text))%N then Ok (it + N.to_nat n) else Undefined.

(** In the loops, [room] is the number of units before the end of the text: incrementing with no
    unit left is undefined. *)
Definition room (it : nat) : nat := length text - it.

(** range_size, iterator.hpp:21-35. *)
Fixpoint size_loop (room cur e : nat) (result : N) : out N :=
  if cur =? e then Ok result
  else match room with O => Undefined | S room => size_loop room (S cur) e (wrap64 (result + 1)) end.
Definition range_size (c : category) (b e : nat) : out N :=
  match c with RA => Ok (distance b e) | FW => size_loop (room b) b e 0%N end.

(** next(iter, n), iterator.hpp:42-55: [for (auto i = 0u; i != n; ++i) ++iter]. *)
Fixpoint next_loop (room it : nat) (i n : N) : out nat :=
  if (i =? n)%N then Ok it
  else match room with O => Undefined | S room => next_loop room (S it) (wrap32 (i + 1)) n end.
Definition next (c : category) (it : nat) (n : N) : out nat :=
  match c with RA => plus it n | FW => next_loop (room it) it 0%N n end.

(** next_clamped, iterator.hpp:57-78. *)
Fixpoint clamped_loop (room it : nat) (i n : N) (e : nat) : out nat :=
  if (i =? n)%N then Ok it
  else if it =? e then Ok it
  else match room with O => Undefined | S room => clamped_loop room (S it) (wrap32 (i + 1)) n e end.
Definition next_clamped (c : category) (it : nat) (n : N) (e : nat) : out nat :=
  match c with
  | RA => if (distance it e <? n)%N then Ok e else plus it n
  | FW => clamped_loop (room it) it 0%N n e
  end.

(** min_range_end, iterator.hpp:90-111. *)
Fixpoint min_loop (room cur a b : nat) : out nat :=
  if (cur =? a) || (cur =? b) then Ok cur
  else match room with O => Undefined | S room => min_loop room (S cur) a b end.
Definition min_range_end (c : category) (b0 a b : nat) : out nat :=
  match c with
  | RA => if (b0 <=? a) && (b0 <=? b) then Ok (if a <=? b then a else b) else Assertion
  | FW => min_loop (room b0) b0 a b
  end.

(** max_range_end, iterator.hpp:113-141. *)
Fixpoint max_loop (room cur a b : nat) : out nat :=
  if cur =? a then Ok b
  else if cur =? b then Ok a
  else match room with O => Undefined | S room => max_loop room (S cur) a b end.
Definition max_range_end (c : category) (b0 a b : nat) : out nat :=
  match c with
  | RA => if (b0 <=? a) && (b0 <=? b) then Ok (if a <=? b then b else a) else Assertion
  | FW => max_loop (room b0) b0 a b
  end.

(** class lexeme, lexeme.hpp:14-75. *)
Record lexeme := Lex { l_begin : nat; l_end : nat }.

(** lexeme(pos, size), lexeme.hpp:25-27. *)
Definition lex_make (c : category) (pos : nat) (n : N) : out lexeme :=
  match next c pos n with Ok e => Ok (Lex pos e) | Undefined => Undefined | Assertion => Assertion end.
(** empty, lexeme.hpp:40-43. *)
Definition lex_empty (l : lexeme) : bool := l_begin l =? l_end l.
(** size, lexeme.hpp:60-63; needs an iterator with [-]. *)
Definition lex_size (l : lexeme) : N := distance (l_begin l) (l_end l).
(** operator[], lexeme.hpp:65-69. *)
Definition lex_at (l : lexeme) (idx : N) : out N :=
  if (idx <? lex_size l)%N then deref (l_begin l + N.to_nat idx) else Assertion.

(** equal_lexemes, lexeme.hpp:86-105. *)
Fixpoint equal_loop (room lc le rc re : nat) : out bool :=
  if (lc =? le) || (rc =? re) then Ok ((lc =? le) && (rc =? re))
  else match room with
    | O => Undefined
    | S room =>
        match deref lc, deref rc with
        | Ok a, Ok b => if (a =? b)%N then equal_loop room (S lc) le (S rc) re else Ok false
        | _, _ => Undefined
        end
    end.
Definition equal_lexemes (c : category) (l r : lexeme) : out bool :=
  let loop := equal_loop (room (l_begin l)) (l_begin l) (l_end l) (l_begin r) (l_end r) in
  match c with
  | RA => if (lex_size l =? lex_size r)%N then loop else Ok false
  | FW => loop
  end.
End Text.
