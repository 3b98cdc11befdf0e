(** Model of lexy's code point encoding and decoding.
    Source: include/lexy/_detail/code_point.hpp, include/lexy/encoding.hpp. *)
From Verif Require Import Prelude.
Open Scope N_scope.

(** include/lexy/encoding.hpp: the encodings for which code points can be
    parsed.  [utf8_char_encoding] differs from [utf8_encoding] only in the
    C++ character type, so both are [Utf8]. *)
Inductive encoding := Ascii | Utf8 | Utf16 | Utf32.

(** encoding.hpp: [eof()] per encoding as an [int_type] value.
    ascii/utf8: 0xFF of an 8-bit int_type; utf16: int_type is int_least32_t
    with eof = -1, modelled as the out-of-band value 0x110000 + 0xFFFF (any
    value outside of 0..0xFFFF); utf32: 0xFFFFFFFF. *)
Definition eof (e : encoding) : N :=
  match e with
  | Ascii => 0xFF
  | Utf8 => 0xFF
  | Utf16 => 0x11FFFF
  | Utf32 => 0xFFFFFFFF
  end.

(** encoding.hpp: number of values of one code unit. *)
Definition unit_bound (e : encoding) : N :=
  match e with
  | Ascii | Utf8 => 0x100
  | Utf16 => 0x10000
  | Utf32 => 0x100000000
  end.

(** input/base.hpp:38-58 (_rr): [peek] is eof() at the end, otherwise the unit.
    The reader is modelled by the list of remaining units. *)
Definition peek (e : encoding) (rest : list N) : N :=
  match rest with
  | [] => eof e
  | c :: _ => c
  end.

(** _detail/code_point.hpp:12-116 [encode_code_point].  The result is the
    list of units written to the buffer (its length is the returned size).
    [cp] is a char32_t. *)
Definition encode_code_point (e : encoding) (cp : N) : list N :=
  match e with
  | Ascii => [cp mod 0x100]                                          (* l.20 *)
  | Utf8 =>
    if cp <=? 0x7F then [cp]                                         (* l.29-35 *)
    else if cp <=? 0x7FF then                                        (* l.36-46 *)
      [N.lor 0xC0 (N.land (N.shiftr cp 6) 0x1F);
       N.lor 0x80 (N.land cp 0x3F)]
    else if cp <=? 0xFFFF then                                       (* l.47-59 *)
      [N.lor 0xE0 (N.land (N.shiftr cp 12) 0x0F);
       N.lor 0x80 (N.land (N.shiftr cp 6) 0x3F);
       N.lor 0x80 (N.land cp 0x3F)]
    else                                                             (* l.60-74 *)
      [N.lor 0xF0 (N.land (N.shiftr cp 18) 0x07);
       N.lor 0x80 (N.land (N.shiftr cp 12) 0x3F);
       N.lor 0x80 (N.land (N.shiftr cp 6) 0x3F);
       N.lor 0x80 (N.land cp 0x3F)]
  | Utf16 =>
    if cp <=? 0xFFFF then [cp]                                       (* l.78-84 *)
    else                                                             (* l.85-98 *)
      let u_prime := cp - 0x10000 in
      let high_ten_bits := N.shiftr u_prime 10 in
      let low_ten_bits := N.land u_prime 0x3FF in
      [(0xD800 + high_ten_bits) mod 0x10000;
       (0xDC00 + low_ten_bits) mod 0x10000]
  | Utf32 => [cp]                                                    (* l.104 *)
  end.

(** _detail/code_point.hpp:122-131 *)
Inductive cp_error :=
| success | cp_eof | leads_with_trailing | missing_trailing | surrogate
| overlong_sequence | out_of_range.

(** _detail/code_point.hpp:133-139 [cp_result]; [cr_end] is the number of units
    between the reader position and [end] (= number of bumps). *)
Record cp_result := CpResult { cr_cp : N; cr_error : cp_error; cr_end : nat }.

Definition is_cont (c : N) : bool := N.ldiff c 0x3F =? 0x80.

(** _detail/code_point.hpp:141-335 [parse_code_point].  [tl] models [bump];
    the number of bumps is the third component of the result, so a bump past the
    end of the input would show up as [cr_end > length rest]. *)
Definition parse_code_point (e : encoding) (r0 : list N) : cp_result :=
  match e with
  | Ascii =>                                                         (* l.144-157 *)
    if peek Ascii r0 =? eof Ascii then CpResult 0 cp_eof 0
    else
      let cur := peek Ascii r0 in
      if cur <=? 0x7F then CpResult cur success 1 else CpResult cur out_of_range 1
  | Utf8 =>                                                          (* l.158-271 *)
    let first := peek Utf8 r0 in
    if N.ldiff first 0x7F =? 0 then CpResult first success 1         (* l.175-180 *)
    else if N.ldiff first 0x3F =? 0x80 then                          (* l.181-184 *)
      CpResult 0 leads_with_trailing 0
    else if N.ldiff first 0x1F =? 0xC0 then                          (* l.185-203 *)
      let r1 := tl r0 in
      let second := peek Utf8 r1 in
      if negb (is_cont second) then CpResult 0 missing_trailing 1
      else
        let result := N.lor (N.shiftl (N.land first 0x1F) 6) (N.land second 0x3F) in
        if (first =? 0xC0) || (first =? 0xC1) then CpResult result overlong_sequence 2
        else CpResult result success 2
    else if N.ldiff first 0x0F =? 0xE0 then                          (* l.204-231 *)
      let r1 := tl r0 in
      let second := peek Utf8 r1 in
      if negb (is_cont second) then CpResult 0 missing_trailing 1
      else
        let r2 := tl r1 in
        let third := peek Utf8 r2 in
        if negb (is_cont third) then CpResult 0 missing_trailing 2
        else
          let cp := N.lor (N.shiftl (N.lor (N.shiftl (N.land first 0x0F) 6)
                                           (N.land second 0x3F)) 6)
                          (N.land third 0x3F) in
          if (0xD800 <=? cp) && (cp <=? 0xDFFF) then CpResult cp surrogate 3
          else if (first =? 0xE0) && (second <? 0xA0) then CpResult cp overlong_sequence 3
          else CpResult cp success 3
    else if N.ldiff first 0x07 =? 0xF0 then                          (* l.232-266 *)
      let r1 := tl r0 in
      let second := peek Utf8 r1 in
      if negb (is_cont second) then CpResult 0 missing_trailing 1
      else
        let r2 := tl r1 in
        let third := peek Utf8 r2 in
        if negb (is_cont third) then CpResult 0 missing_trailing 2
        else
          let r3 := tl r2 in
          let fourth := peek Utf8 r3 in
          if negb (is_cont fourth) then CpResult 0 missing_trailing 3
          else
            let cp := N.lor (N.shiftl (N.lor (N.shiftl (N.lor (N.shiftl (N.land first 0x07) 6)
                                                              (N.land second 0x3F)) 6)
                                             (N.land third 0x3F)) 6)
                            (N.land fourth 0x3F) in
            if 0x10FFFF <? cp then CpResult cp out_of_range 4
            else if (first =? 0xF0) && (second <? 0x90) then CpResult cp overlong_sequence 4
            else CpResult cp success 4
    else CpResult 0 cp_eof 0                                         (* l.267-270 "FE or FF" *)
  | Utf16 =>                                                         (* l.272-312 *)
    if peek Utf16 r0 =? eof Utf16 then CpResult 0 cp_eof 0
    else
      let first := peek Utf16 r0 in
      if N.ldiff first 0x3FF =? 0xD800 then
        let r1 := tl r0 in
        if peek Utf16 r1 =? eof Utf16 then CpResult 0 missing_trailing 1
        else
          let second := peek Utf16 r1 in
          if negb (N.ldiff second 0x3FF =? 0xDC00) then CpResult 0 missing_trailing 1
          else
            let result := N.lor (N.shiftl (N.land first 0x3FF) 10) (N.land second 0x3FF) in
            CpResult (N.lor result 0x10000) success 2                (* l.296-300 *)
      else if N.ldiff first 0x3FF =? 0xDC00 then CpResult 0 leads_with_trailing 0
      else CpResult first success 1
  | Utf32 =>                                                         (* l.313-328 *)
    if peek Utf32 r0 =? eof Utf32 then CpResult 0 cp_eof 0
    else
      let cp := peek Utf32 r0 in
      if 0x10FFFF <? cp then CpResult cp out_of_range 1
      else if (0xD800 <=? cp) && (cp <=? 0xDFFF) then CpResult cp surrogate 1
      else CpResult cp success 1
  end.

(** _detail/code_point.hpp:337-364 [recover_code_point]: number of units the
    reader advances. *)
Definition recover_code_point (r : cp_result) : nat :=
  match cr_error r with
  | success => cr_end r
  | cp_eof => 0
  | leads_with_trailing => 1
  | missing_trailing | surrogate | out_of_range | overlong_sequence => cr_end r
  end.

(** include/lexy/code_point.hpp: classification of code points. *)
Definition cp_is_ascii (cp : N) : bool := cp <=? 0x7F.
Definition cp_is_bmp (cp : N) : bool := cp <=? 0xFFFF.
Definition cp_is_valid (cp : N) : bool := cp <=? 0x10FFFF.
Definition cp_is_surrogate (cp : N) : bool := (0xD800 <=? cp) && (cp <=? 0xDFFF).
Definition cp_is_scalar (cp : N) : bool := cp_is_valid cp && negb (cp_is_surrogate cp).
