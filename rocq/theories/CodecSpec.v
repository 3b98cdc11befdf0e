(** Independent specification of the Unicode encoding forms (Unicode 15, chapter 3.9).
    Nothing here mentions the implementation. *)
From Verif Require Import Prelude.
Open Scope N_scope.

(** D76: Unicode scalar value. *)
Definition scalar (cp : N) : Prop := cp < 0xD800 \/ (0xE000 <= cp /\ cp <= 0x10FFFF).

Definition between (lo x hi : N) : bool := (lo <=? x) && (x <? hi).
Definition cont_byte (x : N) : bool := between 0x80 x 0xC0.

(** The number denoted by a byte sequence that has the shape of a UTF-8
    sequence (Table 3-6), well-formed or not. *)
Definition utf8_value (bs : list N) : option N :=
  match bs with
  | [a] => if a <? 0x80 then Some a else None
  | [a; b] =>
    if between 0xC0 a 0xE0 && cont_byte b then Some ((a - 0xC0) * 64 + (b - 0x80)) else None
  | [a; b; c] =>
    if between 0xE0 a 0xF0 && cont_byte b && cont_byte c
    then Some ((a - 0xE0) * 4096 + (b - 0x80) * 64 + (c - 0x80)) else None
  | [a; b; c; d] =>
    if between 0xF0 a 0xF8 && cont_byte b && cont_byte c && cont_byte d
    then Some ((a - 0xF0) * 262144 + (b - 0x80) * 4096 + (c - 0x80) * 64 + (d - 0x80)) else None
  | _ => None
  end.

(** [bs] is the well-formed UTF-8 encoding of [cp]: it denotes [cp], [cp] is a
    scalar value, and no shorter sequence denotes [cp]. *)
Definition utf8_wf (cp : N) (bs : list N) : Prop :=
  scalar cp /\ utf8_value bs = Some cp /\
  forall bs', utf8_value bs' = Some cp -> (length bs <= length bs')%nat.

(** D91: UTF-16. *)
Definition utf16_wf (cp : N) (us : list N) : Prop :=
  scalar cp /\
  match us with
  | [u] => u < 0x10000 /\ cp = u
  | [h; l] => between 0xD800 h 0xDC00 = true /\ between 0xDC00 l 0xE000 = true /\
              cp = 0x10000 + (h - 0xD800) * 1024 + (l - 0xDC00)
  | _ => False
  end.

(** D90: UTF-32. *)
Definition utf32_wf (cp : N) (us : list N) : Prop := scalar cp /\ us = [cp].
