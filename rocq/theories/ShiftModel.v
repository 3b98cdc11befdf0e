(** Parsing a part of an input. *)
From Verif Require Import Prelude RuleModel.
Close Scope N_scope.

(** lexy::lexeme_input::reader (input/lexeme_input.hpp:56-59) and lexy::partial_input
    (input/base.hpp:119-144): the reader starts at [b] and its end of input is [e]; the characters
    behind [e] do not exist for it.  The positions are iterators of the whole input [mem]. *)
Definition part_action (mem : list N) (b e : nat) (prods : nat -> production) (n p : nat) : res :=
  do_action prods (eng (firstn e mem) prods n) (Cx (p_ws (prods p)) (p_max (prods p))) p
    (St b 0 true [] []).
