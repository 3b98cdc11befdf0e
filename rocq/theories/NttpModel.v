(** Strings as template arguments: LEXY_LIT("..."), LEXY_KEYWORD, LEXY_SYMBOL, LEXY_ASCII_ONE_OF.
    Source: include/lexy/_detail/nttp_string.hpp, include/lexy/_detail/integer_sequence.hpp.
    A string literal is the array of its characters and a zero; characters are numbers.  [None]:
    the program is rejected, or an evaluation of the compiler does not end. *)
From Verif Require Import Prelude.
Close Scope N_scope.

(** integer_sequence.hpp:29-36 [concat_seq]. *)
Definition concat_seq (a b : list nat) : list nat := a ++ map (fun i => length a + i) b.
(** integer_sequence.hpp:38-55 [_make_index_sequence], for compilers without a built-in; the
    first argument is how deep templates may be instantiated inside each other. *)
Fixpoint make_index (depth n : nat) : option (list nat) :=
  match n with
  | 0 => Some []
  | 1 => Some [0]
  | _ =>
    match depth with
    | 0 => None
    | S depth =>
      match make_index depth (n / 2), make_index depth (n - n / 2) with
      | Some a, Some b => Some (concat_seq a b)
      | _, _ => None
      end
    end
  end.

(** The array of a string literal. *)
Definition array (s : list N) : list N := s ++ [0%N].
(** Reading behind an array is no constant expression. *)
Definition at_ (a : list N) (i : nat) : option N := nth_error a i.

(** ** Compilers with class types as template arguments *)
Fixpoint update (i : nat) (c : N) (l : list N) : list N :=
  match l, i with
  | [], _ => []
  | _ :: l, 0 => c :: l
  | x :: l, S i => x :: update i c l
  end.
(** nttp_string.hpp:42-46: the loop of the constructor; [i] is an unsigned int of 32 bits.  The
    first argument bounds the number of iterations. *)
Fixpoint fill (fuel : nat) (n : N) (i : N) (str : list N) (data : list N) : option (list N) :=
  if (i =? n)%N then Some data else
  match fuel with
  | 0 => None
  | S fuel =>
    match at_ str (N.to_nat i) with
    | Some c => fill fuel n ((i + 1) mod 2 ^ 32)%N str (update (N.to_nat i) c data)
    | None => None
    end
  end.
(** nttp_string.hpp:57-58 and 36-46: the size is deduced from the array, [data{}] is all zero. *)
Definition string_literal (fuel : nat) (str : list N) : option (list N) :=
  let n := length str - 1 in fill fuel (N.of_nat n) 0 str (repeat 0%N n).
(** nttp_string.hpp:47-50, 59-60: of a single character. *)
Definition char_literal (c : N) : list N := update 0 c (repeat 0%N 1).
Fixpoint get_all (data : list N) (is : list nat) : option (list N) :=
  match is with
  | [] => Some []
  | i :: is => match at_ data i, get_all data is with Some c, Some l => Some (c :: l) | _, _ => None end
  end.
(** nttp_string.hpp:62-69 [to_type_string]; the indices are those of a compiler with a built-in
    or [make_index]. *)
Definition to_type_string (data : list N) (indices : nat -> option (list nat)) : option (list N) :=
  match indices (length data) with Some is => get_all data is | None => None end.
(** nttp_string.hpp:72-73 [LEXY_NTTP_STRING]. *)
Definition nttp_class (fuel : nat) (indices : nat -> option (list nat)) (str : list N) : option (list N) :=
  match string_literal fuel str with Some data => to_type_string data indices | None => None end.

(** ** Compilers with literal operator templates
    nttp_string.hpp:75-91: the compiler passes the characters without the zero. *)
Definition nttp_literal (str : list N) : option (list N) := Some (removelast str).

(** ** Others: macros *)
(** nttp_string.hpp:120 [LEXY_NTTP_STRING_LENGTH]. *)
Definition string_length (str : list N) : nat := length str - 1.
(** nttp_string.hpp:122-128 [LEXY_NTTP_STRING1]: both types are formed, one is chosen. *)
Definition string1 (str : list N) (i : nat) : option (list N) :=
  match (if string_length str <=? i then at_ str 0 else at_ str i) with
  | Some c => Some (if i <? string_length str then [c] else [])
  | None => None
  end.
(** nttp_string.hpp:97-105 [cat]. *)
Definition cat (a b : option (list N)) : option (list N) :=
  match a, b with Some a, Some b => Some (a ++ b) | _, _ => None end.
(** nttp_string.hpp:130-140. *)
Definition string2 str i := cat (string1 str i) (string1 str (i + 1)).
Definition string4 str i := cat (string2 str i) (string2 str (i + 2)).
Definition string8 str i := cat (string4 str i) (string4 str (i + 4)).
Definition string16 str i := cat (string8 str i) (string8 str (i + 8)).
Definition string32 str i := cat (string16 str i) (string16 str (i + 16)).
(** nttp_string.hpp:107-113, 142-145: a static assertion for longer strings. *)
Definition nttp_macro (str : list N) : option (list N) :=
  match string32 str 0 with
  | Some s => if string_length str <=? 32 then Some s else None
  | None => None
  end.

(** nttp_string.hpp:25-28 [type_string::c_str]; the conversion of a character is a parameter (it
    is in [InpModel]). *)
Definition c_str (transcode : N -> N) (cs : list N) : list N := map transcode cs ++ [0%N].
