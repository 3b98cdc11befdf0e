(** Specification vocabulary for visualization: which characters stand for what. Of the model
    only the flags, the options and the encodings are used. *)
From Coq Require Import String Ascii.
From Verif Require Import Prelude CodecModel CodecSpec LitModel ClassSpec LocSpec VisModel.
Close Scope string_scope.
Open Scope N_scope.

(** What one column of a lexeme is: a code point, or some units that are not part of one. *)
Inductive piece := Point (cp : N) | Ill (units : list N).

(** Hexadecimal numerals: the digits 0-9 and A-F, most significant first. *)
Definition digit_of (c : N) : option N :=
  if (0x30 <=? c) && (c <=? 0x39) then Some (c - 0x30)
  else if (0x41 <=? c) && (c <=? 0x46) then Some (c - 0x41 + 10) else None.
Fixpoint numeral (acc : N) (l : list N) : option N :=
  match l with
  | [] => Some acc
  | c :: l' => match digit_of c with Some d => numeral (acc * 16 + d) l' | None => None end
  end.

Section Text.
Variables (unicode symbols space : bool) (tab_width : N).

(** Characters that cannot be printed are put in brackets, or escaped with a backslash. *)
Definition special (s : list N) : list N :=
  if unicode then str "⟨" ++ s ++ str "⟩" else str "\" ++ s.
Definition named (u a : string) : list N := special (if unicode then str u else str a).

Definition space_text : list N :=
  if space then if symbols then str "␣" else named "SP" "u0020" else str " ".

(** The text [t] stands for the code point [cp]. *)
Inductive point_text : N -> list N -> Prop :=
| pt_invalid cp : 0x10FFFF < cp -> point_text cp (named "U+????" "u????")
| pt_nul : point_text 0 (named "NUL" "0")
| pt_cr : point_text 0x0D (named "CR" "r")
| pt_lf : point_text 0x0A (if symbols then str "⏎" else named "LF" "n")
| pt_tab : point_text 0x09 (if tab_width =? 0 then if symbols then str "⇨" else named "HT" "t"
                            else concat (repeat space_text (N.to_nat tab_width)))
| pt_space : point_text 0x20 space_text
| pt_backslash : point_text 0x5C (if unicode then str "\" else str "\\")
| pt_printable cp : 0x20 < cp < 0x7F -> cp <> 0x5C -> point_text cp [cp]
| pt_number cp s : (cp < 0x20 \/ 0x7F <= cp <= 0x10FFFF) ->
    cp <> 0 -> cp <> 0x0D -> cp <> 0x0A -> cp <> 0x09 ->
    numeral 0 s = Some cp ->
    (if unicode then (4 <= length s)%nat /\ ((4 < length s)%nat -> hd 0 s <> 0x30)
     else length s = if cp <=? 0xFFFF then 4%nat else 8%nat) ->
    point_text cp (special (str (if unicode then "U+" else if cp <=? 0xFFFF then "u" else "U") ++ s)).

(** The text stands for a byte. *)
Inductive byte_text : N -> list N -> Prop :=
| bt b s : numeral 0 s = Some b -> length s = 2%nat ->
    byte_text b (special (str (if unicode then "0x" else "x") ++ s)).

(** The bytes of a unit, most significant first, without leading zeros. *)
Definition unit_bytes (u : N) : list N :=
  if u <? 2 ^ 8 then [u]
  else if u <? 2 ^ 16 then [u / 2 ^ 8; u mod 2 ^ 8]
  else if u <? 2 ^ 24 then [u / 2 ^ 16; u / 2 ^ 8 mod 2 ^ 8; u mod 2 ^ 8]
  else [u / 2 ^ 24; u / 2 ^ 16 mod 2 ^ 8; u / 2 ^ 8 mod 2 ^ 8; u mod 2 ^ 8].

Definition piece_text (p : piece) (t : list N) : Prop :=
  match p with
  | Point cp => point_text cp t
  | Ill us => exists ts, Forall2 byte_text (concat (map unit_bytes us)) ts /\ t = concat ts
  end.

Definition ellipsis : list N := if unicode then str "…" else str "...".

(** A byte of a lexeme of bytes. *)
Inductive raw_text : N -> list N -> Prop :=
| rt b s : numeral 0 s = Some b -> length s = 2%nat -> raw_text b (special s).

(** The text of a sequence of columns, at most [width] of them if that is not zero. *)
Definition row_text {A} (one : A -> list N -> Prop) (width : N) (ps : list A) (t : list N) : Prop :=
  exists ts,
    if (width =? 0) || (N.of_nat (length ps) <? width)
    then Forall2 one ps ts /\ t = concat ts
    else Forall2 one (firstn (N.to_nat width) ps) ts /\ t = concat ts ++ ellipsis.
End Text.

(** The same with the flags of options. *)
Definition shows_point (o : options) : N -> list N -> Prop :=
  point_text (is_set o visualize_use_unicode) (is_set o visualize_use_symbols)
    (is_set o visualize_space) (vo_tab_width o).
Definition shows_pieces (o : options) : list piece -> list N -> Prop :=
  row_text (is_set o visualize_use_unicode)
    (piece_text (is_set o visualize_use_unicode) (is_set o visualize_use_symbols)
      (is_set o visualize_space) (vo_tab_width o))
    (vo_max_lexeme_width o).
Definition shows_bytes (o : options) : list N -> list N -> Prop :=
  row_text (is_set o visualize_use_unicode) (raw_text (is_set o visualize_use_unicode))
    (vo_max_lexeme_width o).

(** The pieces of a text in a Unicode encoding: code points, and units in front of which there
    is none. *)
Fixpoint read_as (e : encoding) (units : list N) (ps : list piece) : Prop :=
  match ps with
  | [] => units = []
  | Point cp :: ps' => scalar cp /\ exists rest, units = encode_code_point e cp ++ rest /\ read_as e rest ps'
  | Ill us :: ps' => us <> [] /\ (forall c n, ~ encodes (Enc e) units c n) /\
                     exists rest, units = us ++ rest /\ read_as e rest ps'
  end.

(** The code point lexy reads for one: in UTF-16, code points of the planes 2, 4, ..., 16 are
    misread (C03). *)
Definition seen (e : encoding) (cp : N) : N :=
  match e with
  | Utf16 => if (0x10000 <=? cp) && negb (N.odd (cp / 0x10000)) then cp - 0x10000 else cp
  | _ => cp
  end.
Definition seen_piece (e : encoding) (p : piece) : piece :=
  match p with Point cp => Point (seen e cp) | Ill us => Ill us end.

(** Units of the encoding that the reader does not take for the end of the input: not the
    value of eof, and in UTF-8 none of the bytes F8 to FF (C05). *)
Definition readable (e : encoding) (c : N) : Prop :=
  c < unit_bound e /\ c <> eof e /\ (e = Utf8 -> c < 0xF8).

(** The units of a single byte text encoding: ASCII characters and others. *)
Definition char_piece (c : N) : piece := if c <? 0x80 then Point c else Ill [c].

(** Terminal colors: a sequence ESC [ ... m is not displayed. *)
Fixpoint displayed (escape : bool) (t : list N) : list N :=
  match t with
  | [] => []
  | c :: t' =>
    if escape then displayed (negb (c =? 0x6D)) t'
    else if c =? 0x1B then displayed true t' else c :: displayed false t'
  end.

(** What an iterator that appends receives. *)
Definition appended (f : forall W I, (W -> I -> N -> W * I) -> W * I -> W * I) : list N :=
  fst (f (list N) unit append_put ([], tt)).

(** Memory with the characters [t] from [p] on. *)
Definition filled (m : nat -> N) (p : nat) (t : list N) (m' : nat -> N) : Prop :=
  forall a, m' a = if (p <=? a)%nat && (a <? p + length t)%nat then nth (a - p) t 0 else m a.

(** The characters a visualization consists of. *)
Definition point_output (cp : N) (o : options) : list N :=
  appended (fun W I put out => visualize_code_point put out cp o).
Definition lexeme_output (e : lexeme_encoding) (us : list N) (o : options) : list N :=
  appended (fun W I put out => visualize_lexeme put out e us o).

(** Writing characters one after another. *)
Fixpoint written {W I} (put : W -> I -> N -> W * I) (out : W * I) (t : list N) : W * I :=
  match t with [] => out | c :: t' => written put (put (fst out) (snd out) c) t' end.
