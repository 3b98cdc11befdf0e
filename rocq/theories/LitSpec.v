(** Specification vocabulary for literals and literal sets. *)
From Verif Require Import Prelude CodecModel LitModel.
Open Scope N_scope.

Definition starts_with (cs l : list N) : Prop := exists r, l = cs ++ r.

(** A literal of a set applies to the remaining input: the input starts with it and,
    if it is a keyword, no character of the keyword's class follows.  The class
    looks at no more than four code units. *)
Definition applies (l : literal) (rest : list N) : Prop :=
  starts_with (l_units l) rest /\
  forall q, l_class l = Some q -> q (firstn 4 (skipn (length (l_units l)) rest)) = false.

(** The literal [l] is the longest one of the set that applies. *)
Definition longest (ls : list literal) (rest : list N) (l : literal) : Prop :=
  In l ls /\ applies l rest /\
  forall l', In l' ls -> applies l' rest -> (length (l_units l') <= length (l_units l))%nat.

Definition none_applies (ls : list literal) (rest : list N) : Prop :=
  forall l, In l ls -> ~ applies l rest.

(** Listing a literal several times must not give it different meanings. *)
Definition consistent (ls : list literal) : Prop :=
  forall l l', In l ls -> In l' ls -> l_units l = l_units l' ->
    l_value l = l_value l' /\ l_class l = l_class l'.

(** No unit of the input or of a literal is the encoding's in-band end-of-file
    value (0xFF for ASCII and UTF-8, 0xFFFFFFFF for UTF-32); it is never part of a
    well-formed text. *)
Definition no_eof (E : lenc) (l : list N) : Prop := ~ In (leof E) l.

(** The lower case form of an ASCII letter; other units are unchanged. *)
Definition lower (c : N) : N := if (65 <=? c) && (c <=? 90) then c + 32 else c.

(** [k] is the number of leading units of [cs] found at the front of [rest]: they
    agree up to there, and either the literal ends there or the next unit differs
    (or is missing). *)
Definition leading (cs rest : list N) (k : nat) : Prop :=
  (k <= length cs)%nat /\ (k <= length rest)%nat /\ firstn k cs = firstn k rest /\
  (k = length cs \/ nth_error cs k <> nth_error rest k).

(** Code points lexy reads back correctly in an encoding: every scalar value in
    UTF-8; in UTF-16 not those of the planes 2, 4, ..., 16 (C03). *)
Definition readable (e : encoding) (cp : N) : Prop :=
  cp <= 0x10FFFF /\ ~ (0xD800 <= cp <= 0xDFFF) /\
  match e with
  | Utf8 => True
  | Utf16 => cp < 0x10000 \/ N.odd (cp / 0x10000) = true
  | _ => False
  end.

(** The text of a sequence of code points. *)
Definition text (e : encoding) (cps : list N) : list N := concat (map (encode_code_point e) cps).

(** [k] is the number of leading code points of the literal that the input has
    after folding. *)
Definition folded_leading (fold : N -> N) (lcps cps : list N) (k : nat) : Prop :=
  leading lcps (map fold cps) k.
