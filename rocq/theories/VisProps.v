(** Property theorems C60 and C61: visualization. *)
From Coq Require Import String Ascii.
From Verif Require Import Prelude CodecModel CodecSpec LitModel ClassSpec LocSpec VisModel VisSpec VisProofs VisText VisShow VisInj VisMain.
Close Scope string_scope.
Open Scope N_scope.

(** ** C60 *)

(** Every code point, valid or not, is displayed as the text that stands for it; color sequences
    are not displayed. *)
Theorem C60_code_point : forall cp o, shows_point o cp (displayed false (point_output cp o)).
Proof. exact point_shown. Qed.
Print Assumptions C60_code_point.

(** A lexeme in ASCII or default encoding: its characters in order, each one displayed as the
    code point or as the byte it is, up to the maximal width (an unsigned char). *)
Theorem C60_single_byte : forall E us o, E = Default \/ E = Enc Ascii -> Forall (fun c => c < 256) us ->
  N.of_nat (length us) < 2 ^ 32 -> vo_max_lexeme_width o < 256 ->
  shows_pieces o (map char_piece us) (displayed false (lexeme_output (VFlat (VText E)) us o)).
Proof. exact single_byte_shown. Qed.
Print Assumptions C60_single_byte.

(** A lexeme of bytes. *)
Theorem C60_bytes : forall us o, Forall (fun c => c < 256) us ->
  N.of_nat (length us) < 2 ^ 32 -> vo_max_lexeme_width o < 256 ->
  shows_bytes o us (displayed false (lexeme_output (VFlat VBytes) us o)).
Proof. exact bytes_shown_all. Qed.
Print Assumptions C60_bytes.

(** A lexeme in a Unicode encoding: every unit, either as part of a code point or as bytes if
    there is no code point in front of it.  Missing: UTF-8 text with a byte F8..FF, and the right
    code points for planes 2, 4, ..., 16 in UTF-16. *)
Theorem C60_unicode_partial : forall e us o, e <> Ascii -> Forall (readable e) us ->
  N.of_nat (length us) < 2 ^ 32 -> vo_max_lexeme_width o < 256 ->
  exists ps, read_as e us ps /\
    shows_pieces o (map (seen_piece e) ps) (displayed false (lexeme_output (VFlat (VText (Enc e))) us o)).
Proof. exact unicode_shown_all. Qed.
Print Assumptions C60_unicode_partial.

(** Not every unit is displayed: "a\xF8b" looks like "a" in UTF-8. *)
Theorem C60_unicode_refuted : exists us, Forall (fun c => c < 256) us /\ us <> [0x61] /\
  forall o, lexeme_output (VFlat (VText (Enc Utf8))) us o = lexeme_output (VFlat (VText (Enc Utf8))) [0x61] o.
Proof. exact stops_at_F8. Qed.
Print Assumptions C60_unicode_refuted.

(** Different texts are displayed differently, whatever the flags, if tabs are not expanded and
    the width is not limited.  UTF-8: any bytes but F8..FF, well-formed or not. *)
Theorem C60_injective_utf8 : forall us1 us2 o, Forall (readable Utf8) us1 -> Forall (readable Utf8) us2 ->
  N.of_nat (length us1) < 2 ^ 32 -> N.of_nat (length us2) < 2 ^ 32 ->
  vo_tab_width o = 0 -> vo_max_lexeme_width o = 0 ->
  lexeme_output (VFlat (VText (Enc Utf8))) us1 o = lexeme_output (VFlat (VText (Enc Utf8))) us2 o -> us1 = us2.
Proof. exact utf8_injective. Qed.
Print Assumptions C60_injective_utf8.

Theorem C60_injective_single_byte : forall E us1 us2 o, E = Default \/ E = Enc Ascii ->
  Forall (fun c => c < 256) us1 -> Forall (fun c => c < 256) us2 ->
  N.of_nat (length us1) < 2 ^ 32 -> N.of_nat (length us2) < 2 ^ 32 ->
  vo_tab_width o = 0 -> vo_max_lexeme_width o = 0 ->
  lexeme_output (VFlat (VText E)) us1 o = lexeme_output (VFlat (VText E)) us2 o -> us1 = us2.
Proof. exact single_byte_injective. Qed.
Print Assumptions C60_injective_single_byte.

Theorem C60_injective_bytes : forall us1 us2 o,
  Forall (fun c => c < 256) us1 -> Forall (fun c => c < 256) us2 ->
  N.of_nat (length us1) < 2 ^ 32 -> N.of_nat (length us2) < 2 ^ 32 -> vo_max_lexeme_width o = 0 ->
  lexeme_output (VFlat VBytes) us1 o = lexeme_output (VFlat VBytes) us2 o -> us1 = us2.
Proof. exact bytes_injective. Qed.
Print Assumptions C60_injective_bytes.

(** Well-formed text of any Unicode encoding.  Missing: UTF-16 text with code points of the
    planes 2, 4, ..., 16. *)
Theorem C60_injective_wf_partial : forall e cps1 cps2 o, e <> Ascii ->
  Forall scalar cps1 -> Forall scalar cps2 ->
  Forall (fun c => seen e c = c) cps1 -> Forall (fun c => seen e c = c) cps2 ->
  N.of_nat (length (encoded e cps1)) < 2 ^ 32 -> N.of_nat (length (encoded e cps2)) < 2 ^ 32 ->
  vo_tab_width o = 0 -> vo_max_lexeme_width o = 0 ->
  lexeme_output (VFlat (VText (Enc e))) (encoded e cps1) o = lexeme_output (VFlat (VText (Enc e))) (encoded e cps2) o ->
  cps1 = cps2.
Proof. exact wf_injective. Qed.
Print Assumptions C60_injective_wf_partial.

(** U+20000 and U+10000 look the same in UTF-16. *)
Theorem C60_injective_refuted : exists cps1 cps2, Forall scalar cps1 /\ Forall scalar cps2 /\ cps1 <> cps2 /\
  forall o, lexeme_output (VFlat (VText (Enc Utf16))) (encoded Utf16 cps1) o =
            lexeme_output (VFlat (VText (Enc Utf16))) (encoded Utf16 cps2) o.
Proof. exact utf16_same. Qed.
Print Assumptions C60_injective_refuted.

(** The lexeme of a parse-tree input (node encoding) is displayed like one of its character
    encoding, with default options.  Missing: with the given options. *)
Theorem C60_node_partial : forall e us o,
  lexeme_output (VNode e) us o = lexeme_output (VFlat e) us default_options.
Proof. exact node_default. Qed.
Print Assumptions C60_node_partial.
Theorem C60_node_refuted : exists e us o, vo_max_lexeme_width o = 3 /\
  lexeme_output (VNode e) us o = str "abcdef" /\ lexeme_output (VFlat e) us o = str "abc...".
Proof. exact node_ignores_options. Qed.
Print Assumptions C60_node_refuted.

(** The display width is the number of characters displayed: the output without colors is
    well-formed UTF-8 text of that many code points. *)
Theorem C60_width : forall e us o, exists cps, Forall scalar cps /\
  displayed false (lexeme_output e us o) = encoded Utf8 cps /\ display_width e us o = N.of_nat (length cps).
Proof. exact width_shown. Qed.
Print Assumptions C60_width.
Theorem C60_width_code_point : forall cp o, exists cps, Forall scalar cps /\
  displayed false (point_output cp o) = encoded Utf8 cps /\ display_width_code_point cp o = N.of_nat (length cps).
Proof. exact width_shown_point. Qed.
Print Assumptions C60_width_code_point.

(** The outputs of "a\<U+0301>\n" followed by an ill-formed byte, in some modes, and limited to two columns. *)
Definition sample60 : list N := [0x61; 0x5C; 0xCC; 0x81; 0x0A; 0xC0].
Example C60_example :
  Forall (readable Utf8) sample60 /\
  lexeme_output (VFlat (VText (Enc Utf8))) sample60 default_options = str "a\\\u0301\n\xC0" /\
  lexeme_output (VFlat (VText (Enc Utf8))) sample60 (Options 1 32 0 0) = str "a\⟨U+0301⟩⟨LF⟩⟨0xC0⟩" /\
  lexeme_output (VFlat (VText (Enc Utf8))) sample60 (Options 5 32 2 0) = str "a\…" /\
  display_width (VFlat (VText (Enc Utf8))) sample60 (Options 1 32 0 0) = 20 /\
  lexeme_output (VFlat (VText Default)) [0x09; 0x80] (Options 8 32 0 0) = str "\t\x80" /\
  lexeme_output (VFlat VBytes) [0x09; 0x80] default_options = str "\09\80" /\
  read_as Utf8 sample60 [Point 0x61; Point 0x5C; Point 0x301; Point 0x0A; Ill [0xC0]].
Proof. exact sample_shown. Qed.
(** An ellipsis is also written if nothing is left out. *)
Example C60_exact_width :
  lexeme_output (VFlat (VText (Enc Utf8))) [0x61; 0x62; 0x63] (Options 0 32 3 0) = str "abc...".
Proof. reflexivity. Qed.
(** With expanded tabs, a tab looks like spaces. *)
Example C60_tabs :
  lexeme_output (VFlat (VText (Enc Utf8))) [0x09] (Options 0 32 0 2) =
  lexeme_output (VFlat (VText (Enc Utf8))) [0x20; 0x20] (Options 0 32 0 2).
Proof. reflexivity. Qed.

(** ** C61 *)

(** What is written, and the iterator returned, is the same as writing the text character by
    character, whatever the iterator does.  Missing: output with colors, unless all copies of the
    iterator are interchangeable. *)
Theorem C61_partial : forall W I (put : W -> I -> N -> W * I) out e us o,
  is_set o visualize_use_color = false \/ (forall i j : I, i = j) ->
  visualize_lexeme put out e us o = written put out (lexeme_output e us o).
Proof. exact lexeme_written. Qed.
Print Assumptions C61_partial.
Theorem C61_code_point_partial : forall W I (put : W -> I -> N -> W * I) out cp o,
  is_set o visualize_use_color = false \/ (forall i j : I, i = j) ->
  visualize_code_point put out cp o = written put out (point_output cp o).
Proof. exact point_written. Qed.
Print Assumptions C61_code_point_partial.

(** A pointer: the text is in memory from there on, nothing else is changed, and its end is
    returned. *)
Theorem C61_pointer_partial : forall m p e us o, is_set o visualize_use_color = false ->
  exists m', visualize_lexeme pointer_put (m, p) e us o = (m', (p + length (lexeme_output e us o))%nat) /\
    filled m p (lexeme_output e us o) m'.
Proof. exact lexeme_pointer. Qed.
Print Assumptions C61_pointer_partial.

(** With colors a pointer receives other characters than an appending iterator: the second
    color code is overwritten. *)
Theorem C61_refuted : exists e us o m p,
  snd (visualize_lexeme pointer_put (m, p) e us o) <> (p + length (lexeme_output e us o))%nat /\
  lexeme_output e us o = [0x1B] ++ str "[36;2m\n" ++ [0x1B] ++ str "[0m" /\
  map (fst (visualize_lexeme pointer_put (m, p) e us o)) (seq p 12) = [0x1B] ++ str "[36;m\n" ++ [0x1B] ++ str "[0m".
Proof. exact pointer_differs. Qed.
Print Assumptions C61_refuted.

Example C61_example :
  is_set (Options 13 32 0 4) visualize_use_color = false /\
  snd (visualize_lexeme pointer_put (fun _ => 0, 10%nat) (VFlat (VText (Enc Utf8))) sample60 (Options 1 32 0 0)) = 42%nat /\
  visualize_lexeme append_put (str "> ", tt) (VFlat (VText (Enc Utf8))) [0x61; 0x0A] default_options = (str "> a\n", tt).
Proof. split; [reflexivity|]. split; [vm_compute; reflexivity|]. reflexivity. Qed.
