(** Model of [lexy::as_string] and its case folding.
    Source: include/lexy/callback/string.hpp. *)
From Verif Require Import Prelude CodecModel LitModel.
Open Scope N_scope.

(** A string is the list of its units.  The types of characters and encodings are compatible
    (the static assertions), allocators are not modelled. *)

Section Str.
Variable fold : N -> N.      (* the Unicode case folding table, see [LitModel] *)

(** string.hpp:32-47: the loop of the case folding in place.  The reader reads the memory that
    is being written; [mk mem] is the case folding reader of a reader of [mem]. *)
Fixpoint fold_inplace (fuel : nat) (e : encoding) (mk : list N -> ops nat) (mem : list N)
  (reader ptr : nat) : option (list N) :=
  match fuel with
  | O => None
  | S fuel' =>
    let cur := o_peek (mk mem) reader in
    if cur =? eof e then Some mem
    else
      let reader := o_bump (mk mem) reader in
      fold_inplace fuel' e mk (firstn ptr mem ++ [cur] ++ skipn (S ptr) mem) reader (S ptr)
  end.

(** string.hpp:53-71: the loop that appends to a new string. *)
Fixpoint fold_copy (fuel : nat) (e : encoding) {St} (o : ops St) (s : St) (str : list N)
  : option (list N) :=
  match fuel with
  | O => None
  | S fuel' =>
    let cur := o_peek o s in
    if cur =? eof e then Some str
    else fold_copy fuel' e o (o_bump o s) (str ++ [cur])
  end.

(** string.hpp:24-72 [_case_folding]: [is_inplace] is case_folding.hpp:123 and 283. *)
Definition case_fold (f : folding) (e : encoding) (str : list N) : option (list N) :=
  match f with
  | NoFold => Some str
  | AsciiFold => fold_inplace (S (length str)) e (fun mem => acf (raw (Enc e) mem)) str 0 0
  | UnicodeFold =>
    match e with
    | Utf32 => fold_inplace (S (length str)) e (fun mem => suc32 fold (raw (Enc e) mem)) str 0 0
    | _ =>
      fold_copy (S (4 * length str)) e (sucm fold e (raw (Enc e) str))
                (sucm_fill fold e (raw (Enc e) str) 0%nat) []
    end
  end.

(** The arguments of the callback, string.hpp:80-135: the parts of a string are given by their
    units. *)
Inductive str_arg :=
| SNullopt
| SString (s : list N)
| SRange (s : list N)
| SLexeme (s : list N)
| SCodePoint (cp : N).
Definition string_cb (f : folding) (e : encoding) (a : str_arg) : option (list N) :=
  match a with
  | SNullopt => Some []
  | SString s | SRange s | SLexeme s => case_fold f e s
  | SCodePoint cp => case_fold f e (encode_code_point e cp)
  end.

(** The arguments of the sink callback, string.hpp:137-183. *)
Inductive str_piece :=
| PChar (c : N)
| PString (s : list N)
| PRange (s : list N)
| PLexeme (s : list N)
| PCodePoint (cp : N).
Definition sink_piece (e : encoding) (result : list N) (p : str_piece) : list N :=
  match p with
  | PChar c => result ++ [c]
  | PString s | PRange s | PLexeme s => result ++ s
  | PCodePoint cp => result ++ encode_code_point e cp
  end.
(** string.hpp:181-184 [finish], l.186-194 [sink]. *)
Definition string_sink (f : folding) (e : encoding) (ps : list str_piece) : option (list N) :=
  case_fold f e (fold_left (sink_piece e) ps []).
End Str.

(** Reading a text code point by code point, with [parse_code_point] (e.g. the loop of
    [dsl::code_point]); [None] if it is not well-formed. *)
Fixpoint read_code_points (fuel : nat) (e : encoding) (r : list N) : option (list N) :=
  match fuel with
  | O => None
  | S fuel' =>
    let result := parse_code_point e r in
    match cr_error result with
    | success => option_map (cons (cr_cp result)) (read_code_points fuel' e (skipn (cr_end result) r))
    | cp_eof => Some []
    | _ => None
    end
  end.
