(** What lexemes are: parts of a text. *)
From Verif Require Import Prelude LexModel.
Close Scope N_scope.

(** The units from [b] to [e]. *)
Definition part (text : list N) (b e : nat) : list N := firstn (e - b) (skipn b text).
(** [b] to [e] is a range of the text. *)
Definition in_text (text : list N) (b e : nat) : Prop := b <= e /\ e <= length text.
Definition lex_of (text : list N) (l : lexeme) : list N := part text (l_begin l) (l_end l).
Definition in_lex (text : list N) (l : lexeme) : Prop := in_text text (l_begin l) (l_end l).
(** Texts that fit into memory. *)
Definition fits (text : list N) : Prop := (N.of_nat (length text) < 2 ^ 63)%N.
