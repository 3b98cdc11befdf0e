(** Property theorems C06-C08: word-at-a-time scanning. *)
From Verif Require Import Prelude SwarModel SwarSpec SwarLanes SwarProofs SwarScan SwarScan2
  BufferModel BufferReads.
Open Scope N_scope.

(** A separator consisting of the single unit '_'. *)
Definition underscore (l : list N) : option nat :=
  match l with 0x5F :: _ => Some 1%nat | _ => None end.

(** C06, digits: [dsl::digits<>.sep('_')] on the UTF-8 buffer "123456789_1" stops in
    front of the separator (digit.hpp:331-347: after skipping a word of digits the
    loop gives up if no digit follows, without trying the separator again);
    scanning by units consumes everything. *)
Theorem C06_digit_separator_refuted : exists contents,
  contents = [0x31; 0x32; 0x33; 0x34; 0x35; 0x36; 0x37; 0x38; 0x39; 0x5F; 0x31] /\
  digits_sep_swar 100 8 Cdecimal underscore (buffer_mem 0xFF contents) 1 = Fin true 9 /\
  digits_sep_units 100 Cdecimal underscore (skipn 1 contents) = Some (true, 10%nat).
Proof. eexists. split; [reflexivity|]. split; vm_compute; reflexivity. Qed.
Print Assumptions C06_digit_separator_refuted.

(** C06, classes: an identifier of [ascii::graph] characters scanned by words over
    the UTF-32 buffer "ab" leaves the allocation; by units it ends after two. *)
Theorem C06_graph_utf32_refuted : exists contents,
  contents = [0x61; 0x62] /\
  identifier_trailing_swar 100 32 Cgraph (buffer_mem 0xFFFFFFFF contents) 0 = Oob /\
  run (class_table Cgraph) contents = 2%nat.
Proof. eexists. split; [reflexivity|]. split; vm_compute; reflexivity. Qed.
Print Assumptions C06_graph_utf32_refuted.

(** C06, literals: matching LEXY_LIT("ab") (8-bit literal) against the UTF-32
    buffer "a" reports a mismatch four units on, past the end of the input
    (literal.hpp:45 uses the literal's character type for the unit width). *)
Theorem C06_literal_utf32_refuted : exists contents cs,
  contents = [0x61] /\ cs = [0x61; 0x62] /\
  match_literal 32 8 cs (buffer_mem 0xFFFFFFFF contents) 0 = Fin false 4 /\
  common cs contents = 1%nat.
Proof. eexists. eexists. split; [reflexivity|]. split; [reflexivity|]. split; vm_compute; reflexivity. Qed.
Print Assumptions C06_literal_utf32_refuted.

(** C06, the part that holds.  For every buffer whose contents do not contain the
    end marker, every start position and every width: [any], digit and class runs,
    identifiers, whitespace runs, newline search and literals written in the
    input's own character type end exactly where unit-wise scanning ends; the word
    loop of delimited content only skips units the unit loop would accept; digits
    with separators end there or in front of a separator that follows a full word
    of digits.
    Missing from the full statement: class [graph]/[print] at widths above 8
    (refuted), literals of another character width (refuted) and the exact end of
    digits with separators (refuted). *)
Theorem C06_swar_equals_units_partial : forall w contents pos fuel,
  width_ok w -> Forall (fun x => x < 2 ^ w) contents -> ~ In (2 ^ w - 1) contents ->
  (pos <= length contents)%nat -> (length contents - pos < fuel)%nat ->
  let mem := buffer_mem (2 ^ w - 1) contents in
  let rest := skipn pos contents in
  any_swar fuel w (2 ^ w - 1) mem pos = At (length contents) /\
  (forall k, filter_ok k w ->
     digits_swar fuel w k mem pos = At (pos + run (class_table k) rest) /\
     identifier_trailing_swar fuel w k mem pos = At (pos + run (class_table k) rest)) /\
  (forall k, class_table k 0x20 = true ->
     whitespace_swar fuel w k mem pos = At (pos + run (class_table k) rest)) /\
  ((exists k n, first_newline rest k n /\
      until_nl_swar fuel w (2 ^ w - 1) mem pos = Fin true (pos + k + n) /\
      until_nl_eof_swar fuel w (2 ^ w - 1) mem pos = At (pos + k + n)) \/
   (no_newline rest /\
      until_nl_swar fuel w (2 ^ w - 1) mem pos = Fin false (length contents) /\
      until_nl_eof_swar fuel w (2 ^ w - 1) mem pos = At (length contents))) /\
  (forall cs, Forall (fun x => x < 2 ^ w) cs -> ~ In (2 ^ w - 1) cs ->
     match_literal w w cs mem pos
     = Fin (common cs rest =? length cs)%nat (pos + common cs rest)) /\
  (forall close1 escs k, filter_ok k w -> close1 < 2 ^ w -> Forall (fun e => e < 2 ^ w) escs ->
     exists p, swar_skip fuel w (delimited_swar_filter w (2 ^ w - 1) close1 escs k) mem pos = At p /\
       (pos <= p)%nat /\
       (p <= pos + run (fun x => (class_table k x && negb (x =? close1)
                                  && negb (existsb (fun e => x =? e) escs)
                                  && negb (x =? 2 ^ w - 1))%N) rest)%nat) /\
  (forall k sep, filter_ok k w -> sep_ok (2 ^ w - 1) k sep ->
     exists ok m, digits_sep_swar fuel w k sep mem pos = Fin ok (pos + m) /\
       (pos + m <= length contents)%nat /\
       (digits_sep_units (S (length contents)) k sep rest = Some (ok, m) \/
        ok = true /\ stopped_early w contents k sep (pos + m))).
Proof. exact swar_equals_units. Qed.
Print Assumptions C06_swar_equals_units_partial.

Example C06_nonvacuous :
  let contents := [0x61; 0x62; 0x63; 0x64; 0x65; 0x66; 0x67; 0x68; 0x69; 0x6A; 0x21; 0x0D; 0x0A; 0x61] in
  Forall (fun x => x < 2 ^ 8) contents /\ ~ In (2 ^ 8 - 1) contents /\
  identifier_trailing_swar 100 8 Clower (buffer_mem 0xFF contents) 0 = At 10 /\
  until_nl_swar 100 8 0xFF (buffer_mem 0xFF contents) 0 = Fin true 13 /\
  match_literal 8 8 [0x62; 0x63; 0x64; 0x65; 0x66; 0x67; 0x68; 0x69; 0x6A; 0x22] (buffer_mem 0xFF contents) 1
  = Fin false 10 /\
  filter_ok Clower 8 /\ sep_ok 0xFF Cdecimal underscore.
Proof.
  split; [repeat constructor|].
  split; [intros H; cbn in H; repeat (destruct H as [H|H]; [discriminate|]); exact H|].
  split; [vm_compute; reflexivity|]. split; [vm_compute; reflexivity|]. split; [vm_compute; reflexivity|].
  split; [now left|]. exact underscore_sep_ok.
Qed.

(** C07: the word predicates are exact, for all words.  [pack w l] is the word whose
    units, lowest first, are [l]; every word is one. *)
Theorem C07_word_predicates_exact : forall w a b c n,
  width_ok w -> word_lanes w a -> word_lanes w b -> c < 2 ^ w -> n <= 2 ^ (w - 1) ->
  (swar_has_zero w (pack w a) = true <-> In 0 a) /\
  (swar_has_char w c (pack w a) = true <-> In c a) /\
  (swar_has_char_less w n (pack w a) = true <-> exists x, In x a /\ x < n) /\
  swar_fill w c = pack w (repeat c (swar_length w)) /\
  (a <> b -> let k := swar_find_difference w (pack w a) (pack w b) in
     firstn k a = firstn k b /\ (exists x y, nth_error a k = Some x /\ nth_error b k = Some y /\ x <> y)) /\
  swar_find_difference w (pack w a) (pack w a) = swar_length w /\
  (forall cs skip, Forall (fun x => x < 2 ^ w) cs -> (skip < length cs)%nat ->
     let k := Nat.min (swar_length w) (length cs - skip) in
     pk_count (swar_pack w skip cs) = k /\
     pk_value (swar_pack w skip cs) = pack w (firstn k (skipn skip cs)) /\
     N.land (pack w a) (pk_mask (swar_pack w skip cs)) = pack w (firstn k a)).
Proof. exact word_predicates_exact. Qed.
Print Assumptions C07_word_predicates_exact.

Theorem C07_every_word_has_units : forall w v,
  width_ok w -> v < 2 ^ 64 -> exists l, word_lanes w l /\ v = pack w l.
Proof. exact every_word. Qed.
Print Assumptions C07_every_word_has_units.

Example C07_nonvacuous :
  word_lanes 8 [1; 2; 3; 4; 5; 0x80; 0xFF; 0x7F] /\
  swar_has_char 8 0x80 (pack 8 [1; 2; 3; 4; 5; 0x80; 0xFF; 0x7F]) = true /\
  swar_has_zero 8 (pack 8 [1; 2; 3; 4; 5; 0x80; 0xFF; 0x7F]) = false /\
  swar_find_difference 16 (pack 16 [1; 2; 3; 4]) (pack 16 [1; 2; 0xFF03; 4]) = 2%nat.
Proof. split; [split; [repeat constructor|reflexivity]|]. vm_compute. auto. Qed.

(** C08: the filters of [graph] and [print] accept a word containing the unit
    0xFFFF respectively 0xFFFFFFFF (ascii.hpp:374-442 guards the wrap-around of
    [c + 1] only for one-byte units). *)
Theorem C08_graph_print_refuted :
  (exists l, word_lanes 32 l /\ class_swar Cgraph 32 (pack 32 l) = true /\
             class_swar Cprint 32 (pack 32 l) = true /\
             exists x, In x l /\ class_table Cgraph x = false /\ class_table Cprint x = false) /\
  (exists l, word_lanes 16 l /\ class_swar Cgraph 16 (pack 16 l) = true /\
             class_swar Cprint 16 (pack 16 l) = true /\
             exists x, In x l /\ class_table Cgraph x = false /\ class_table Cprint x = false).
Proof. exact graph_print_refuted. Qed.
Print Assumptions C08_graph_print_refuted.

(** C08, the part that holds: every class and width except [graph]/[print] on
    units wider than a byte. *)
Theorem C08_filters_sound_partial : forall k w l,
  width_ok w -> (w = 8 \/ (k <> Cgraph /\ k <> Cprint)) -> word_lanes w l ->
  class_swar k w (pack w l) = true -> Forall (fun x => class_table k x = true) l.
Proof. exact class_sound. Qed.
Print Assumptions C08_filters_sound_partial.

Example C08_nonvacuous :
  word_lanes 8 [0x30; 0x31; 0x32; 0x33; 0x34; 0x35; 0x36; 0x39] /\
  class_swar Cdigit 8 (pack 8 [0x30; 0x31; 0x32; 0x33; 0x34; 0x35; 0x36; 0x39]) = true /\
  class_swar Cgraph 8 (pack 8 [0x21; 0x7E; 0x41; 0x61; 0x7B; 0x40; 0x5B; 0x60]) = true /\
  class_swar Clower 32 (pack 32 [0x61; 0x7A]) = true.
Proof. split; [split; [repeat constructor|reflexivity]|]. vm_compute. auto. Qed.
