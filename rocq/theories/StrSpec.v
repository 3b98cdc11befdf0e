(** Specification vocabulary for [as_string]. *)
From Verif Require Import Prelude CodecModel CodecSpec StrModel.
Open Scope N_scope.

(** [us] is the well-formed text of the code point in the encoding. *)
Definition cp_text (e : encoding) (cp : N) (us : list N) : Prop :=
  match e with
  | Ascii => cp <= 0x7F /\ us = [cp]
  | Utf8 => utf8_wf cp us
  | Utf16 => utf16_wf cp us
  | Utf32 => utf32_wf cp us
  end.
(** The code point exists in the encoding. *)
Definition in_encoding (e : encoding) (cp : N) : Prop :=
  scalar cp /\ (e = Ascii -> cp <= 0x7F).
(** The code points that lexy reads back from UTF-16: not those of planes 2, 4, ..., 16 (C03). *)
Definition reads_back (e : encoding) (cp : N) : Prop :=
  in_encoding e cp /\ (e = Utf16 -> cp < 0x10000 \/ N.odd (cp / 0x10000) = true).

(** What a piece contributes to the string. *)
Definition piece_text (e : encoding) (p : str_piece) (us : list N) : Prop :=
  match p with
  | PChar c => us = [c]
  | PString s | PRange s | PLexeme s => us = s
  | PCodePoint cp => cp_text e cp us
  end.
Definition piece_ok (e : encoding) (p : str_piece) : Prop :=
  match p with PCodePoint cp => in_encoding e cp | _ => True end.

(** The lower case form of an ASCII letter; other units are unchanged. *)
Definition ascii_lower (c : N) : N := if (0x41 <=? c) && (c <=? 0x5A) then c + 0x20 else c.

(** A text of these code points. *)
Inductive text_of (e : encoding) : list N -> list N -> Prop :=
| text_nil : text_of e [] []
| text_cons cp us cps t : cp_text e cp us -> text_of e cps t -> text_of e (cp :: cps) (us ++ t).
