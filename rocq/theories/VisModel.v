(** Model of the visualization of code points and lexemes.
    Source: include/lexy/visualize.hpp.

    Characters are bytes (N).  An output iterator is a value of a type [I] that writes into
    something outside of it, of type [W]: [put w i c] is [*out++ = c].  Copies of the iterator
    share [W] but not [I]; functions take and return the iterator by value. *)
From Coq Require Import String Ascii.
From Verif Require Import Prelude CodecModel LitModel.
Close Scope string_scope.
Open Scope N_scope.

(** A string literal: its bytes without the terminator. *)
Definition str (s : string) : list N := map N_of_ascii (list_ascii_of_string s).

(** visualize.hpp:16-32 [visualization_flags]. *)
Definition visualize_use_unicode : N := 1.
Definition visualize_use_color : N := 2.
Definition visualize_use_symbols : N := 4.
Definition visualize_space : N := 8.

(** visualize.hpp:40-75 [visualization_options]. *)
Record options := Options {
  vo_flags : N;
  vo_max_tree_depth : N;
  vo_max_lexeme_width : N;
  vo_tab_width : N }.
(** visualize.hpp:45-56: the default member initializers. *)
Definition default_options : options := Options 0 32 0 0.
(** visualize.hpp:58-61 [is_set]. *)
Definition is_set (o : options) (f : N) : bool := negb (N.land (vo_flags o) f =? 0).
(** visualize.hpp:63-68 [reset]. *)
Definition reset (o : options) (f : N) : options :=
  Options (N.ldiff (vo_flags o) f) (vo_max_tree_depth o) (vo_max_lexeme_width o) (vo_tab_width o).
(** visualize.hpp:70-75 [operator|]. *)
Definition set_flag (o : options) (f : N) : options :=
  Options (N.lor (vo_flags o) f) (vo_max_tree_depth o) (vo_max_lexeme_width o) (vo_tab_width o).

(** The conversions of printf used: [%04X], [%08X] and [%02X] of a non-negative int, at most
    eight digits. *)
Definition hex_digit (d : N) : N := if d <? 10 then 0x30 + d else 0x41 + (d - 10).
Fixpoint hex_digits (k : nat) (n : N) : list N :=
  match k with
  | O => []
  | S k' => hex_digits k' (n / 16) ++ [hex_digit (n mod 16)]
  end.
Definition hex_size (n : N) : nat :=
  if n <? 0x10 then 1 else if n <? 0x100 then 2 else if n <? 0x1000 then 3
  else if n <? 0x10000 then 4 else if n <? 0x100000 then 5 else if n <? 0x1000000 then 6
  else if n <? 0x10000000 then 7 else 8.
Definition format_hex (width : nat) (n : N) : list N := hex_digits (Nat.max width (hex_size n)) n.

(** visualize.hpp:120-135 [color]. *)
Inductive color := Reset | Bold | Faint | Red | Yellow | Blue | Cyan.
Definition color_code (c : color) : N :=
  match c with
  | Reset => 0 | Bold => 1 | Faint => 2 | Red => 31 | Yellow => 33 | Blue => 34 | Cyan => 36
  end.

Section Out.
Context {W I : Type} (put : W -> I -> N -> W * I).
Definition out : Type := W * I.

(** [*out++ = c]. *)
Definition put_char (o : out) (c : N) : out := put (fst o) (snd o) c.

(** visualize.hpp:93-106 [write_str]. *)
Definition write_str (o : out) (s : list N) : out := fold_left put_char s o.

(** visualize.hpp:108-118 [write_format]; [s] is the formatted text.  Simplified: a text of
    more than 15 characters (the buffer given to snprintf has 16 with the terminator) does not
    occur. *)
Definition write_format (o : out) (s : list N) : out := write_str o s.

(** visualize.hpp:145-156: [write_code]. *)
Definition write_code (o : out) (code : N) : out :=
  if 10 <? code then put_char (put_char o (code / 10 + 0x30)) (code mod 10 + 0x30)
  else put_char o (code + 0x30).

(** visualize.hpp:158: the fold over the further codes; the iterator [write_code] returns is
    discarded. *)
Definition write_tail (o : out) (code : N) : out :=
  let o1 := put_char o 0x3B in
  (fst (write_code o1 code), snd o1).

(** visualize.hpp:137-162 [write_color]. *)
Definition write_color (o : out) (opts : options) (head : color) (tail : list color) : out :=
  if negb (is_set opts visualize_use_color) then o
  else
    let o1 := write_str o [0x1B; 0x5B] in
    let o2 := write_code o1 (color_code head) in
    let o3 := fold_left write_tail (map color_code tail) o2 in
    put_char o3 0x6D.

(** visualize.hpp:164-171 [write_ellipsis]. *)
Definition write_ellipsis (o : out) (opts : options) : out :=
  if is_set opts visualize_use_unicode then write_str o (str "…") else write_str o (str "...").

(** visualize.hpp:173-188 [write_special_char]. *)
Definition write_special_char (o : out) (opts : options) (inner : out -> out) : out :=
  let o := write_color o opts Cyan [Faint] in
  let o := if is_set opts visualize_use_unicode then write_str o (str "⟨") else write_str o (str "\") in
  let o := inner o in
  let o := if is_set opts visualize_use_unicode then write_str o (str "⟩") else o in
  write_color o opts Reset [].

(** visualize.hpp:275-303: the case of the space character, which is all the recursive call
    for tabs (l.242-245) uses. *)
Definition visualize_space_char (o : out) (opts : options) : out :=
  if is_set opts visualize_space then
    if is_set opts visualize_use_symbols then
      let o := write_color o opts Faint [] in
      let o := write_str o (str "␣") in
      write_color o opts Reset []
    else if is_set opts visualize_use_unicode then
      write_special_char o opts (fun o => write_str o (str "SP"))
    else write_special_char o opts (fun o => write_str o (str "u0020"))
  else put_char o 0x20.

(** visualize.hpp:240-246: the loop for tabs. *)
Fixpoint write_tab (k : nat) (o : out) (opts : options) : out :=
  match k with
  | O => o
  | S k' => write_tab k' (visualize_space_char o opts) opts
  end.

Definition cp_is_control (cp : N) : bool :=                  (* code_point.hpp:45-48 *)
  (cp <=? 0x1F) || ((0x7F <=? cp) && (cp <=? 0x9F)).

(** visualize.hpp:193-345 [visualize_to(code_point)]. *)
Definition visualize_code_point (o : out) (cp : N) (opts : options) : out :=
  let unicode := is_set opts visualize_use_unicode in
  if negb (cp_is_valid cp) then                                              (* l.196-205 *)
    write_special_char o opts (fun o =>
      if unicode then write_str o (str "U+????") else write_str o (str "u????"))
  else if cp_is_control cp then                                              (* l.206-273 *)
    if cp =? 0 then
      write_special_char o opts (fun o =>
        if unicode then write_str o (str "NUL") else write_str o (str "0"))
    else if cp =? 0x0D then
      write_special_char o opts (fun o =>
        if unicode then write_str o (str "CR") else write_str o (str "r"))
    else if cp =? 0x0A then
      if is_set opts visualize_use_symbols then
        let o := write_color o opts Faint [] in
        let o := write_str o (str "⏎") in
        write_color o opts Reset []
      else if unicode then write_special_char o opts (fun o => write_str o (str "LF"))
      else write_special_char o opts (fun o => write_str o (str "n"))
    else if cp =? 0x09 then
      if 0 <? vo_tab_width opts then write_tab (N.to_nat (vo_tab_width opts)) o opts
      else if is_set opts visualize_use_symbols then
        let o := write_color o opts Faint [] in
        let o := write_str o (str "⇨") in
        write_color o opts Reset []
      else if unicode then write_special_char o opts (fun o => write_str o (str "HT"))
      else write_special_char o opts (fun o => write_str o (str "t"))
    else
      write_special_char o opts (fun o =>
        if unicode then write_format o (str "U+" ++ format_hex 4 cp)
        else write_format o (str "u" ++ format_hex 4 cp))
  else if cp =? 0x20 then visualize_space_char o opts                        (* l.274-303 *)
  else if cp =? 0x5C then                                                    (* l.304-313 *)
    if negb unicode then write_special_char o opts (fun o => write_str o (str "\"))
    else put_char o 0x5C
  else if cp_is_ascii cp then put_char o cp                                  (* l.314-319 *)
  else                                                                       (* l.320-332 *)
    write_special_char o opts (fun o =>
      if unicode then write_format o (str "U+" ++ format_hex 4 cp)
      else if cp_is_bmp cp then write_format o (str "u" ++ format_hex 4 cp)
      else write_format o (str "U" ++ format_hex 8 cp)).

(** visualize.hpp:356-363: [write_escaped_byte]. *)
Definition write_escaped_byte (opts : options) (o : out) (byte : N) : out :=
  write_special_char o opts (fun o =>
    if is_set opts visualize_use_unicode then write_format o (str "0x" ++ format_hex 2 byte)
    else write_format o (str "x" ++ format_hex 2 byte)).

(** visualize.hpp:396-429: one skipped code unit. *)
Definition write_skipped (e : encoding) (opts : options) (o : out) (c : N) : out :=
  match e with
  | Ascii => o
  | Utf8 => write_escaped_byte opts o (N.land c 0xFF)
  | Utf16 =>
    let first := N.land (N.shiftr c 8) 0xFF in
    let second := N.land c 0xFF in
    let o := if negb (first =? 0) then write_escaped_byte opts o first else o in
    write_escaped_byte opts o second
  | Utf32 =>
    let first := N.land (N.shiftr c 24) 0xFF in
    let second := N.land (N.shiftr c 16) 0xFF in
    let third := N.land (N.shiftr c 8) 0xFF in
    let fourth := N.land c 0xFF in
    let o := if negb (first =? 0) then write_escaped_byte opts o first else o in
    let o := if negb (first =? 0) || negb (second =? 0) then write_escaped_byte opts o second else o in
    let o := if negb (first =? 0) || negb (second =? 0) || negb (third =? 0)
             then write_escaped_byte opts o third else o in
    write_escaped_byte opts o fourth
  end.

(** [++count] of an [unsigned]. *)
Definition count_up (count : N) : N := (count + 1) mod 2 ^ 32.

(** visualize.hpp:365-440: the loop over a lexeme in a Unicode encoding; [rest] are the units
    not yet read.  The fuel is the number of units. *)
Fixpoint visualize_unicode (fuel : nat) (e : encoding) (o : out) (rest : list N) (count : N)
  (opts : options) : out :=
  match fuel with
  | O => o
  | S fuel' =>
    let result := parse_code_point e rest in
    let next o rest :=
      let count := count_up count in
      if count =? vo_max_lexeme_width opts then write_ellipsis o opts
      else visualize_unicode fuel' e o rest count opts in
    match cr_error result with
    | cp_eof => o
    | success => next (visualize_code_point o (cr_cp result) opts) (skipn (cr_end result) rest)
    | _ =>
      let n := recover_code_point result in
      next (fold_left (write_skipped e opts) (firstn n rest) o) (skipn n rest)
    end
  end.

(** visualize.hpp:441-461 and 462-480: the loops over the units of other lexemes; [one] writes
    one unit. *)
Fixpoint visualize_units (one : out -> N -> out) (o : out) (units : list N) (count : N)
  (opts : options) : out :=
  match units with
  | [] => o
  | c :: units' =>
    let o := one o c in
    let count := count_up count in
    if count =? vo_max_lexeme_width opts then write_ellipsis o opts
    else visualize_units one o units' count opts
  end.

(** visualize.hpp:441-461: a unit of ASCII or default encoding. *)
Definition visualize_char (opts : options) (o : out) (c : N) : out :=
  if c <=? 0x7F then visualize_code_point o c opts else write_escaped_byte opts o c.
(** visualize.hpp:468-471: a byte. *)
Definition visualize_byte (opts : options) (o : out) (c : N) : out :=
  write_special_char o opts (fun o => write_format o (format_hex 2 c)).

(** The encodings [visualize_to(lexeme)] distinguishes. *)
Inductive flat_encoding := VText (E : lenc) | VBytes.
Inductive lexeme_encoding := VFlat (e : flat_encoding) | VNode (chars : flat_encoding).

(** visualize.hpp:347-480 [visualize_to(lexeme)] but for nodes. *)
Definition visualize_flat (o : out) (e : flat_encoding) (units : list N) (opts : options) : out :=
  match e with
  | VText (Enc Ascii) | VText Default => visualize_units (visualize_char opts) o units 0 opts
  | VText (Enc e) => visualize_unicode (S (length units)) e o units 0 opts
  | VBytes => visualize_units (visualize_byte opts) o units 0 opts
  end.

(** visualize.hpp:347-494; a lexeme of a node encoding is visualized with default options
    (l.487-493). *)
Definition visualize_lexeme (o : out) (e : lexeme_encoding) (units : list N) (opts : options) : out :=
  match e with
  | VFlat e => visualize_flat o e units opts
  | VNode e => visualize_flat o e units default_options
  end.
End Out.

(** ** Output iterators *)

(** std::back_insert_iterator, and visualize.hpp:607-663 the iterators that write to a FILE:
    nothing is stored in the iterator. *)
Definition append_put (w : list N) (i : unit) (c : N) : list N * unit := (w ++ [c], tt).

(** A pointer into memory: the position is in the iterator. *)
Definition pointer_put (m : nat -> N) (p : nat) (c : N) : (nat -> N) * nat :=
  (fun a => if (a =? p)%nat then c else m a, S p).

(** visualize.hpp:679-701: the counting iterator of [visualization_display_width]. *)
Definition width_put (w : unit) (width c : N) : unit * N :=
  (tt, if negb (N.land c 0xC0 =? 0x80) then width + 1 else width).

(** visualize.hpp:676-705 [visualization_display_width]. *)
Definition display_width (e : lexeme_encoding) (units : list N) (opts : options) : N :=
  snd (visualize_lexeme width_put (tt, 0) e units (reset opts visualize_use_color)).
Definition display_width_code_point (cp : N) (opts : options) : N :=
  snd (visualize_code_point width_put (tt, 0) cp (reset opts visualize_use_color)).
