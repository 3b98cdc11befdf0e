(** Which token rules there are for an encoding, and which of them are never empty. *)
From Verif Require Import Prelude CodecModel LitModel LitSpec ClassModel TextModel IntModel
  FolModel ByteModel GtModel.
Open Scope N_scope.

(** Unicode case folding needs an encoding with code points (it does not compile otherwise). *)
Definition foldable (E : lenc) (f : folding) : Prop := f = UnicodeFold -> E <> Default.

(** The rule compiles for the encoding, and no literal contains the unit that marks the end of
    the input: 0xFF in ASCII and UTF-8, 0xFFFFFFFF in UTF-32 (neither is ever part of a text).
    No unit of the default encoding or of UTF-16 is that one. *)
Fixpoint tr_ok (E : lenc) (t : trule) : Prop :=
  match t with
  | TrLit f cs | TrFollow f cs _ => no_eof E cs /\ foldable E f
  | TrSet f ls => (forall l, In l ls -> no_eof E (l_units l)) /\ foldable E f
  | TrKeyword _ _ cs => no_eof E cs
  | TrClass _ | TrPattern _ _ | TrAny | TrDigits _ | TrDigitsT _ | TrNDigits _ _ => True
  | TrUntil t | TrUntilEof t | TrDigitsS _ t | TrDigitsST _ t | TrNDigitsS _ _ t | TrTag _ t => tr_ok E t
  | TrBytes _ _ | TrBits _ => E = Default
  end.

(** Token rules that look as if they never match the empty text: literals with characters (Unicode
    case folding is left out), characters, digits, bytes and what ends in one of these. *)
Fixpoint eats (t : trule) : Prop :=
  match t with
  | TrLit f cs | TrFollow f cs _ => f <> UnicodeFold /\ cs <> []
  | TrSet f ls => f <> UnicodeFold /\ forall l, In l ls -> l_units l <> []
  | TrKeyword _ _ cs => cs <> []
  | TrUntil t | TrTag _ t => eats t
  | TrUntilEof _ | TrAny => False
  | TrNDigits n _ | TrBytes n _ => (1 <= n)%nat
  | TrClass _ | TrPattern _ _ | TrDigits _ | TrDigitsT _ | TrDigitsS _ _ | TrDigitsST _ _
  | TrNDigitsS _ _ _ | TrBits _ => True
  end.
