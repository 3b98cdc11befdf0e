(** Model of the word-at-a-time (SWAR) machinery.
    Source: include/lexy/_detail/swar.hpp, the word filters of dsl/ascii.hpp and
    dsl/digit.hpp, and the scanning loops of dsl/any.hpp, dsl/until.hpp,
    dsl/digit.hpp, dsl/identifier.hpp, dsl/whitespace.hpp, dsl/delimited.hpp and
    dsl/literal.hpp as they run on a [lexy::buffer] reader. *)
From Verif Require Import Prelude.
Open Scope N_scope.

(** ** Word arithmetic: [swar_int = std::uintmax_t] (swar.hpp:20), 64 bits,
    wrap-around made explicit. *)
Definition wmod : N := 2 ^ 64.
Definition wadd (a b : N) : N := (a + b) mod wmod.
Definition wsub (a b : N) : N := (a + wmod - b) mod wmod.
Definition wnot (a : N) : N := N.ldiff (N.ones 64) a.
Definition wshl (a k : N) : N := (N.shiftl a k) mod wmod.

(** swar.hpp:23-30 [swar_length], as a [nat]; [w] is [char_bit_size]. *)
Definition swar_length (w : N) : nat := N.to_nat (64 / w).

(** swar.hpp:44-57 [swar_fill]: the loop. *)
Fixpoint swar_fill_loop (n : nat) (w c result : N) : N :=
  match n with
  | O => result
  | S n' => swar_fill_loop n' w c (N.lor (wshl result w) c)
  end.
Definition swar_fill (w c : N) : N := swar_fill_loop (swar_length w) w c 0.

(** swar.hpp:59-72 [swar_fill_compl]: [uchar_t(~c)] is the complement within
    the width of the character type. *)
Definition swar_fill_compl (w c : N) : N :=
  swar_fill_loop (swar_length w) w (N.ldiff (N.ones w) c) 0.

(** swar.hpp:74-85 [_swar_pack]: [index] may be negative while skipping. *)
Fixpoint swar_pack_value (w : N) (result : N) (index : Z) (cs : list N) : N :=
  match cs with
  | [] => result
  | h :: t =>
    if (index =? 64)%Z then result
    else
      let result' := if (0 <=? index)%Z then N.lor result (wshl h (Z.to_N index)) else result in
      swar_pack_value w result' (index + Z.of_N w) t
  end.

(** swar.hpp:87-129 [swar_pack]: (value, mask, count). *)
Record pack_result := PackResult { pk_value : N; pk_mask : N; pk_count : nat }.
Definition swar_pack (w : N) (skip : nat) (cs : list N) : pack_result :=
  let value := swar_pack_value w 0 (- Z.of_nat skip * Z.of_N w) cs in
  let count := (Z.of_nat (length cs) - Z.of_nat skip)%Z in
  if (count <=? 0)%Z then PackResult value 0 0
  else if (Z.of_nat (swar_length w) <=? count)%Z then
    PackResult value (wmod - 1) (swar_length w)
  else PackResult value (wshl 1 (Z.to_N count * w) - 1) (Z.to_nat count).

(** swar.hpp:140-152: count of trailing zero bits of a non-zero word. *)
Fixpoint pos_ctz (p : positive) : N :=
  match p with
  | xO p' => N.succ (pos_ctz p')
  | _ => 0
  end.
Definition ctz (v : N) : N := match v with 0 => 0 | Npos p => pos_ctz p end.

(** swar.hpp:131-155 [swar_find_difference<CharT>]; [w] is the width of [CharT]. *)
Definition swar_find_difference (w lhs rhs : N) : nat :=
  if lhs =? rhs then swar_length w
  else N.to_nat (ctz (N.lxor lhs rhs) / w).

(** swar.hpp:157-170 [swar_has_char_less<CharT, N>]. *)
Definition swar_has_char_less (w n v : N) : bool :=
  let zero_or_msb := wsub v (swar_fill w n) in
  let not_msb := N.land (wnot v) (swar_fill w (2 ^ (w - 1))) in
  negb (N.land zero_or_msb not_msb =? 0).

(** swar.hpp:172-177 [swar_has_zero]. *)
Definition swar_has_zero (w v : N) : bool := swar_has_char_less w 1 v.

(** swar.hpp:179-192 [swar_has_char]. *)
Definition swar_has_char (w c v : N) : bool :=
  if c =? 0 then swar_has_zero w v else swar_has_zero w (N.lxor v (swar_fill w c)).

(** ** Word filters of the predefined classes. *)

(** dsl/ascii.hpp:31-40 [_control] *)
Definition swar_control (w c : N) : bool :=
  N.land c (swar_fill_compl w 0x1F) =? swar_fill w 0.
(** dsl/ascii.hpp:129-143 [_lower] *)
Definition swar_lower (w c : N) : bool :=
  let mask := swar_fill_compl w 0x1F in
  let expected := swar_fill w 0x60 in
  (N.land (wsub c (swar_fill w 1)) mask =? expected)
  && (N.land (wadd c (swar_fill w 5)) mask =? expected).
(** dsl/ascii.hpp:161-175 [_upper] *)
Definition swar_upper (w c : N) : bool :=
  let mask := swar_fill_compl w 0x1F in
  let expected := swar_fill w 0x40 in
  (N.land (wsub c (swar_fill w 1)) mask =? expected)
  && (N.land (wadd c (swar_fill w 5)) mask =? expected).
(** dsl/ascii.hpp:194-199 [_alpha], 219-224 [_alphau], 275-280 [_alnum],
    300-306 [_word]: all delegate to [_lower]. *)
Definition swar_alpha := swar_lower.
Definition swar_alphau := swar_alpha.
Definition swar_alnum := swar_alpha.
Definition swar_word := swar_alphau.
(** dsl/ascii.hpp:243-256 [_digit] *)
Definition swar_digit (w c : N) : bool :=
  let mask := swar_fill_compl w 0x0F in
  let expected := swar_fill w 0x30 in
  (N.land c mask =? expected)
  && (N.land (wadd c (swar_fill w 6)) mask =? expected).
(** dsl/ascii.hpp:374-401 [_graph]; [sizeof(char_type) == 1] is [w =? 8]. *)
Definition swar_graph (w c : N) : bool :=
  let ascii_mask := swar_fill_compl w 0x7F in
  let ascii_expected := swar_fill w 0 in
  if negb (N.land (wadd c (swar_fill w 1)) ascii_mask =? ascii_expected) then false
  else if (w =? 8) && negb (N.land c ascii_mask =? ascii_expected) then false
  else
    let mask := swar_fill_compl w 0x1F in
    negb (swar_has_zero w (N.land c mask))
    && negb (swar_has_zero w (N.land (wsub c (swar_fill w 1)) mask)).
(** dsl/ascii.hpp:419-442 [_print] *)
Definition swar_print (w c : N) : bool :=
  let ascii_mask := swar_fill_compl w 0x7F in
  let ascii_expected := swar_fill w 0 in
  if negb (N.land (wadd c (swar_fill w 1)) ascii_mask =? ascii_expected) then false
  else if (w =? 8) && negb (N.land c ascii_mask =? ascii_expected) then false
  else
    let mask := swar_fill_compl w 0x1F in
    negb (swar_has_zero w (N.land c mask)).
(** dsl/ascii.hpp:460-469 [_char] *)
Definition swar_char (w c : N) : bool :=
  N.land c (swar_fill_compl w 0x7F) =? swar_fill w 0.

(** dsl/digit.hpp:44-52, 79-87, 114-122 [_d<Radix>::swar_matches]; the
    hexadecimal bases (154-159, 190-195, 230-235) delegate to [_d<10>]. *)
Definition swar_radix (offset w c : N) : bool :=
  let mask := swar_fill_compl w 0x0F in
  let expected := swar_fill w 0x30 in
  (N.land c mask =? expected)
  && (N.land (wadd c (swar_fill w offset)) mask =? expected).

(** ** Classes: the ASCII tables ([char_class_ascii]) next to their filters. *)
Definition in_range (lo hi c : N) : bool := (lo <=? c) && (c <=? hi).

Inductive ascii_class :=
| Ccontrol | Cblank | Cnewline | Cother_space | Cspace | Clower | Cupper | Calpha | Calphau
| Cdigit | Calnum | Cword | Cpunct | Cgraph | Cprint | Cchar
| Cbinary | Coctal | Cdecimal | Chex_lower | Chex_upper | Chex.

(** dsl/ascii.hpp, dsl/digit.hpp: [char_class_ascii] of each class. *)
Definition class_table (k : ascii_class) (c : N) : bool :=
  let blank := (c =? 0x20) || (c =? 0x09) in
  let newline := (c =? 0x0A) || (c =? 0x0D) in
  let other := (c =? 0x0C) || (c =? 0x0B) in
  let lower := in_range 0x61 0x7A c in
  let upper := in_range 0x41 0x5A c in
  let digit := in_range 0x30 0x39 c in
  match k with
  | Ccontrol => in_range 0x00 0x1F c || (c =? 0x7F)                  (* ascii.hpp:23-29 *)
  | Cblank => blank                                                  (* 52-58 *)
  | Cnewline => newline                                              (* 69-75 *)
  | Cother_space => other                                            (* 86-92 *)
  | Cspace => blank || newline || other                              (* 103-110 *)
  | Clower => lower                                                  (* 122-127 *)
  | Cupper => upper                                                  (* 154-159 *)
  | Calpha => lower || upper                                         (* 186-192 *)
  | Calphau => lower || upper || (c =? 0x5F)                         (* 210-217 *)
  | Cdigit => digit                                                  (* 236-241 *)
  | Calnum => lower || upper || digit                                (* 267-273 *)
  | Cword => lower || upper || (c =? 0x5F) || digit                  (* 292-298 *)
  | Cpunct => in_range 0x21 0x2F c || in_range 0x3A 0x40 c
              || in_range 0x5B 0x60 c || in_range 0x7B 0x7E c        (* 319-355 *)
  | Cgraph => in_range 0x21 0x7E c                                   (* 367-372 *)
  | Cprint => in_range 0x20 0x7E c                                   (* 412-417 *)
  | Cchar => in_range 0x00 0x7F c                                    (* 453-458 *)
  | Cbinary => in_range 0x30 0x31 c                                  (* digit.hpp:29-34 *)
  | Coctal => in_range 0x30 0x37 c                                   (* 64-69 *)
  | Cdecimal => digit                                                (* 99-104 *)
  | Chex_lower => digit || in_range 0x61 0x66 c                      (* 133-139 *)
  | Chex_upper => digit || in_range 0x41 0x46 c                      (* 169-175 *)
  | Chex => digit || in_range 0x61 0x66 c || in_range 0x41 0x46 c    (* 206-213 *)
  end.

(** dsl/ascii.hpp / digit.hpp: [char_class_match_swar] respectively
    [swar_matches]; char_class.hpp:195-201 is the default [std::false_type].
    The unicode classes of dsl/unicode.hpp (26-490) use the ASCII table and the
    word filter of the ASCII class of the same name. *)
Definition class_swar (k : ascii_class) (w c : N) : bool :=
  match k with
  | Ccontrol => swar_control w c
  | Clower => swar_lower w c
  | Cupper => swar_upper w c
  | Calpha => swar_alpha w c
  | Calphau => swar_alphau w c
  | Cdigit => swar_digit w c
  | Calnum => swar_alnum w c
  | Cword => swar_word w c
  | Cgraph => swar_graph w c
  | Cprint => swar_print w c
  | Cchar => swar_char w c
  | Cbinary => swar_radix 0x0E w c
  | Coctal => swar_radix 0x08 w c
  | Cdecimal | Chex_lower | Chex_upper | Chex => swar_radix 0x06 w c
  | Cblank | Cnewline | Cother_space | Cspace | Cpunct => false
  end.

(** ** The buffer reader on memory.
    [mem] is the complete allocation of the buffer, in units of [w] bits. *)

(** swar.hpp:206-223 [peek_swar] (little-endian branch): an 8 byte memcpy.
    [None] is a read outside of the allocation. *)
Fixpoint pack (w : N) (us : list N) : N :=
  match us with
  | [] => 0
  | u :: us' => u + 2 ^ w * pack w us'
  end.
Definition peek_swar (w : N) (mem : list N) (pos : nat) : option N :=
  if (pos + swar_length w <=? length mem)%nat
  then Some (pack w (firstn (swar_length w) (skipn pos mem)))
  else None.

(** input/buffer.hpp:36-40 [_br::peek]; [None] is a read outside of the allocation. *)
Definition br_peek (mem : list N) (pos : nat) : option N := nth_error mem pos.

(** Outcome of a scanning loop: the reader position, a read outside of the
    allocation, or the fuel of the model ran out. *)
Inductive scan := At (pos : nat) | Oob | NoFuel.

(** [while (filter(reader.peek_swar())) reader.bump_swar();] *)
Fixpoint swar_skip (fuel : nat) (w : N) (filter : N -> bool) (mem : list N) (pos : nat) : scan :=
  match fuel with
  | O => NoFuel
  | S fuel' =>
    match peek_swar w mem pos with
    | None => Oob
    | Some v => if filter v then swar_skip fuel' w filter mem (pos + swar_length w) else At pos
    end
  end.

(** [while (class matches reader.peek()) reader.bump();] *)
Fixpoint unit_skip (fuel : nat) (cls : N -> bool) (mem : list N) (pos : nat) : scan :=
  match fuel with
  | O => NoFuel
  | S fuel' =>
    match br_peek mem pos with
    | None => Oob
    | Some c => if cls c then unit_skip fuel' cls mem (pos + 1) else At pos
    end
  end.

Definition scan_bind (s : scan) (f : nat -> scan) : scan :=
  match s with At p => f p | Oob => Oob | NoFuel => NoFuel end.

(** dsl/any.hpp:22-37 [_any::tp::try_parse]. *)
Definition any_swar (fuel : nat) (w eofc : N) (mem : list N) (pos : nat) : scan :=
  scan_bind (swar_skip fuel w (fun v => negb (swar_has_char w eofc v)) mem pos)
    (unit_skip fuel (fun c => negb (c =? eofc)) mem).

(** dsl/digit.hpp:293-317 [_match_digits] after the first digit: SWAR loop, then
    unit loop. *)
Definition digits_swar (fuel : nat) (w : N) (k : ascii_class) (mem : list N) (pos : nat) : scan :=
  scan_bind (swar_skip fuel w (class_swar k w) mem pos) (unit_skip fuel (class_table k) mem).

(** dsl/identifier.hpp:51-64 [_idp] trailing loop and, with the filter of
    dsl/whitespace.hpp:127 (a word of spaces), [skip_whitespace] 123-135:
    alternate the SWAR loop with a single unit. *)
Fixpoint class_run_swar (fuel : nat) (w : N) (filter cls : N -> bool) (mem : list N) (pos : nat)
  : scan :=
  match fuel with
  | O => NoFuel
  | S fuel' =>
    scan_bind (swar_skip fuel w filter mem pos) (fun p =>
      match br_peek mem p with
      | None => Oob
      | Some c => if cls c then class_run_swar fuel' w filter cls mem (p + 1) else At p
      end)
  end.
Definition identifier_trailing_swar fuel w k mem pos :=
  class_run_swar fuel w (class_swar k w) (class_table k) mem pos.
Definition whitespace_swar fuel w k mem pos :=
  class_run_swar fuel w (fun v => v =? swar_fill w 0x20) (class_table k) mem pos.

(** dsl/digit.hpp:318-351 [_match_digits_sep] on a buffer reader, after the
    first digit.  [sep] is the token parser of the separator: given the remaining
    memory, the length of its match.  Result: success flag and position. *)
Inductive scan2 := Fin (ok : bool) (pos : nat) | Oob2 | NoFuel2.
Fixpoint digits_sep_swar (fuel : nat) (w : N) (k : ascii_class) (sep : list N -> option nat)
  (mem : list N) (pos : nat) : scan2 :=
  match fuel with
  | O => NoFuel2
  | S fuel' =>
    match sep (skipn pos mem) with
    | Some n =>
      match br_peek mem (pos + n) with
      | None => Oob2
      | Some c => if class_table k c then digits_sep_swar fuel' w k sep mem (pos + n + 1)
                  else Fin false (pos + n)
      end
    | None =>
      match swar_skip fuel w (class_swar k w) mem pos with
      | NoFuel => NoFuel2
      | Oob => Oob2
      | At p =>
        match br_peek mem p with
        | None => Oob2
        | Some c => if class_table k c then digits_sep_swar fuel' w k sep mem (p + 1)
                    else Fin true p
        end
      end
    end
  end.

(** dsl/newline.hpp:24-25 [_nl]: the literal set "\n", "\r\n"; on no match the
    length is irrelevant to the loops here. *)
Definition match_newline (rest : list N) : option nat :=
  match rest with
  | 0x0A :: _ => Some 1%nat
  | 0x0D :: 0x0A :: _ => Some 2%nat
  | _ => None
  end.

(** dsl/until.hpp:15-34 [_until_swar]: only for the newline condition. *)
Definition until_swar_filter (w eofc v : N) : bool :=
  negb (swar_has_char w eofc v || swar_has_char_less w 0xF v).

(** dsl/until.hpp:73-112 [_until<_nl>::tp::try_parse]. *)
Fixpoint until_nl_swar (fuel : nat) (w eofc : N) (mem : list N) (pos : nat) : scan2 :=
  match fuel with
  | O => NoFuel2
  | S fuel' =>
    match swar_skip fuel w (until_swar_filter w eofc) mem pos with
    | NoFuel => NoFuel2
    | Oob => Oob2
    | At p =>
      match match_newline (skipn p mem) with
      | Some n => Fin true (p + n)
      | None =>
        match br_peek mem p with
        | None => Oob2
        | Some c => if c =? eofc then Fin false p else until_nl_swar fuel' w eofc mem (p + 1)
        end
      end
    end
  end.

(** dsl/until.hpp:36-71 [_until_eof<_nl>::tp::try_parse] (always succeeds). *)
Fixpoint until_nl_eof_swar (fuel : nat) (w eofc : N) (mem : list N) (pos : nat) : scan :=
  match fuel with
  | O => NoFuel
  | S fuel' =>
    scan_bind (swar_skip fuel w (until_swar_filter w eofc) mem pos) (fun p =>
      match br_peek mem p with
      | None => Oob
      | Some c =>
        if c =? eofc then At p
        else match match_newline (skipn p mem) with
             | Some n => At (p + n)%nat
             | None => until_nl_eof_swar fuel' w eofc mem (p + 1)
             end
      end)
  end.

(** dsl/delimited.hpp:52-96 [_del_chars::parse_swar]: skip words that contain
    neither eof, nor the first character of the closing literal, nor the first
    character of an escape literal, and that pass the filter of the class. *)
Definition delimited_swar_filter (w eofc close1 : N) (escs : list N) (k : ascii_class) (v : N)
  : bool :=
  negb (swar_has_char w eofc v || swar_has_char w close1 v)
  && negb (existsb (fun e => swar_has_char w e v) escs)
  && class_swar k w v.

(** dsl/literal.hpp:18-60 [match_literal<CurCharIndex, CharT, Cs...>] on a
    buffer reader.  [w] is the unit width of the input, [wl] the width of the
    literal's own character type (used by swar_find_difference at l.45), [cs] the
    transcoded characters.  The template recursion is bounded by the number of
    characters. *)
Fixpoint match_literal_swar (fuel : nat) (w wl : N) (cs : list N) (cur : nat)
  (mem : list N) (pos : nat) : scan2 :=
  match fuel with
  | O => NoFuel2
  | S fuel' =>
    if (length cs <=? cur)%nat then Fin true pos                     (* l.23-27 *)
    else
      let pk := swar_pack w cur cs in                                (* l.33 *)
      match peek_swar w mem pos with
      | None => Oob2
      | Some v =>
        if N.land v (pk_mask pk) =? pk_value pk then                 (* l.36-42 *)
          match_literal_swar fuel' w wl cs (cur + pk_count pk) mem (pos + pk_count pk)
        else                                                         (* l.43-48 *)
          Fin false (pos + swar_find_difference wl (N.land v (pk_mask pk)) (pk_value pk))
      end
  end.

(** dsl/literal.hpp:50-59: the unit-wise branch; on a buffer reader it is used
    for literals shorter than a word. *)
Fixpoint match_literal_units (cs : list N) (mem : list N) (pos : nat) : scan2 :=
  match cs with
  | [] => Fin true pos
  | c :: cs' =>
    match br_peek mem pos with
    | None => Oob2
    | Some u => if u =? c then match_literal_units cs' mem (pos + 1) else Fin false pos
    end
  end.

Definition match_literal (w wl : N) (cs : list N) (mem : list N) (pos : nat) : scan2 :=
  if (swar_length w <=? length cs)%nat && negb (length cs =? 0)%nat
  then match_literal_swar (S (length cs)) w wl cs 0 mem pos
  else match_literal_units cs mem pos.
