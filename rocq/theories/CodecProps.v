(** Property theorems C01-C05: code point encoding and decoding. *)
From Verif Require Import Prelude CodecModel CodecSpec CodecProofs.
Open Scope N_scope.

(** C01: encoding then reading a scalar value is the identity, whatever follows,
    and the encoding is the well-formed one. *)
Theorem C01_utf8_roundtrip : forall cp rest,
  scalar cp ->
  utf8_wf cp (encode_code_point Utf8 cp) /\
  parse_code_point Utf8 (encode_code_point Utf8 cp ++ rest)
  = CpResult cp success (length (encode_code_point Utf8 cp)).
Proof. exact (fun cp rest H => conj (encode_utf8_wf cp H) (utf8_roundtrip cp rest H)). Qed.
Print Assumptions C01_utf8_roundtrip.

Example C01_nonvacuous :
  scalar 0x1F642 /\ encode_code_point Utf8 0x1F642 = [0xF0; 0x9F; 0x99; 0x82].
Proof. split; [unfold scalar; lia | vm_compute; reflexivity]. Qed.

(** C02: success means the consumed units are the well-formed encoding of the
    produced scalar value; conversely a well-formed encoding is always accepted;
    each error kind means what it says. *)
Theorem C02_utf8_accepts_only_well_formed : forall r,
  Forall byte r ->
  (forall cp n, parse_code_point Utf8 r = CpResult cp success n ->
     (n <= length r)%nat /\ utf8_wf cp (firstn n r)) /\
  (forall cp bs rest, r = bs ++ rest -> utf8_wf cp bs ->
     parse_code_point Utf8 r = CpResult cp success (length bs)) /\
  (forall cp n, parse_code_point Utf8 r = CpResult cp overlong_sequence n ->
     (n <= length r)%nat /\ utf8_value (firstn n r) = Some cp /\
     (length (encode_code_point Utf8 cp) < n)%nat) /\
  (forall cp n err, parse_code_point Utf8 r = CpResult cp err n ->
     err = surrogate \/ err = out_of_range ->
     (n <= length r)%nat /\ utf8_value (firstn n r) = Some cp /\ ~ scalar cp) /\
  (forall cp n err, parse_code_point Utf8 r = CpResult cp err n ->
     err = leads_with_trailing \/ err = missing_trailing \/ err = cp_eof ->
     forall k v, utf8_value (firstn k r) <> Some v).
Proof. exact utf8_characterised. Qed.
Print Assumptions C02_utf8_accepts_only_well_formed.

Example C02_nonvacuous :
  Forall byte [0xE2; 0x82; 0xAC; 0x41] /\
  parse_code_point Utf8 [0xE2; 0x82; 0xAC; 0x41] = CpResult 0x20AC success 3 /\
  parse_code_point Utf8 [0xE0; 0x82; 0xAC] = CpResult 0xAC overlong_sequence 3 /\
  parse_code_point Utf8 [0xED; 0xA0; 0x80] = CpResult 0xD800 surrogate 3 /\
  parse_code_point Utf8 [0xF4; 0x90; 0x80; 0x80] = CpResult 0x110000 out_of_range 4 /\
  parse_code_point Utf8 [0xE2; 0x41] = CpResult 0 missing_trailing 1.
Proof. split; [repeat constructor|]. repeat split; vm_compute; reflexivity. Qed.

(** C03: the UTF-16 round trip fails: the surrogate-pair case combines the plane
    offset with a bitwise or instead of an addition (code_point.hpp:299). *)
Theorem C03_utf16_roundtrip_refuted : exists cp,
  scalar cp /\ utf16_wf cp (encode_code_point Utf16 cp) /\
  cr_error (parse_code_point Utf16 (encode_code_point Utf16 cp)) = success /\
  cr_cp (parse_code_point Utf16 (encode_code_point Utf16 cp)) <> cp.
Proof. exact utf16_refuted. Qed.
Print Assumptions C03_utf16_roundtrip_refuted.

(** C03, the part that does hold: the encoder is right for every scalar value;
    the round trip holds exactly for the basic plane and the odd-numbered
    supplementary planes, and for an even-numbered plane the decoder is off by
    exactly 0x10000.  Missing for the full property: planes 2, 4, ..., 16. *)
Theorem C03_utf16_roundtrip_partial : forall cp rest,
  scalar cp ->
  utf16_wf cp (encode_code_point Utf16 cp) /\
  parse_code_point Utf16 (encode_code_point Utf16 cp ++ rest)
  = CpResult (if (0x10000 <=? cp) && negb (N.odd (cp / 0x10000)) then cp - 0x10000 else cp)
             success (length (encode_code_point Utf16 cp)).
Proof. exact utf16_roundtrip_part. Qed.
Print Assumptions C03_utf16_roundtrip_partial.

(** C03, soundness side: a successful read consumes a well-formed UTF-16
    sequence inside the input. *)
Theorem C03_utf16_sound_partial : forall r cp n,
  Forall (fun c => c < 0x10000) r -> parse_code_point Utf16 r = CpResult cp success n ->
  (n <= length r)%nat /\
  exists cp', utf16_wf cp' (firstn n r) /\
    cp = (if (0x10000 <=? cp') && negb (N.odd (cp' / 0x10000)) then cp' - 0x10000 else cp').
Proof. exact utf16_sound. Qed.
Print Assumptions C03_utf16_sound_partial.

Example C03_nonvacuous :
  scalar 0x1F642 /\ encode_code_point Utf16 0x1F642 = [0xD83D; 0xDE42] /\
  parse_code_point Utf16 [0xD83D; 0xDE42; 0x41] = CpResult 0x1F642 success 2 /\
  parse_code_point Utf16 [0xD840; 0xDC00] = CpResult 0x10000 success 2.
Proof. split; [unfold scalar; lia|]. repeat split; vm_compute; reflexivity. Qed.

(** C04: UTF-32 succeeds exactly on scalar values, ASCII exactly up to 0x7F,
    both consume one unit and return it unchanged, and encoding then reading is the
    identity on the representable values. *)
Theorem C04_utf32_ascii : forall r cp n,
  (parse_code_point Utf32 r = CpResult cp success n <->
     n = 1%nat /\ exists rest, r = cp :: rest /\ scalar cp) /\
  (parse_code_point Ascii r = CpResult cp success n <->
     n = 1%nat /\ exists rest, r = cp :: rest /\ cp <= 0x7F) /\
  (scalar cp -> encode_code_point Utf32 cp = [cp]) /\
  (cp <= 0x7F -> encode_code_point Ascii cp = [cp]).
Proof. exact utf32_ascii_char. Qed.
Print Assumptions C04_utf32_ascii.

Example C04_nonvacuous :
  parse_code_point Utf32 [0x1F642; 0x41] = CpResult 0x1F642 success 1 /\
  parse_code_point Utf32 [0xD800] = CpResult 0xD800 surrogate 1 /\
  parse_code_point Ascii [0x41] = CpResult 0x41 success 1 /\
  parse_code_point Ascii [0x80] = CpResult 0x80 out_of_range 1.
Proof. repeat split; vm_compute; reflexivity. Qed.

(** C05: end of input is not recognised exactly: the UTF-8 decoder treats the
    invalid lead bytes 0xF8..0xFE as the end of the input
    (code_point.hpp:267, comment "FE or FF"), in the middle of the input. *)
Theorem C05_eof_refuted : exists r,
  Forall (unit_ok Utf8) r /\ r <> [] /\
  cr_error (parse_code_point Utf8 r) = cp_eof /\
  recover_code_point (parse_code_point Utf8 r) = 0%nat.
Proof. exact eof_refuted. Qed.
Print Assumptions C05_eof_refuted.

(** C05, the part that holds.  For units that are valid for the encoding:
    reading and recovery stay in bounds, move by at most four units, and make
    progress unless end-of-input was reported.  If additionally no unit is one of
    the UTF-8 bytes 0xF8..0xFE, end-of-input is reported exactly at the end. *)
Theorem C05_progress_partial : forall e r,
  Forall (unit_ok e) r ->
  ((cr_end (parse_code_point e r) <= length r)%nat /\
   (recover_code_point (parse_code_point e r) <= length r)%nat /\
   (recover_code_point (parse_code_point e r) <= 4)%nat /\
   (cr_error (parse_code_point e r) <> cp_eof ->
      (1 <= recover_code_point (parse_code_point e r))%nat)) /\
  ((e = Utf8 -> Forall (fun c => c < 0xF8) r) ->
   (cr_error (parse_code_point e r) = cp_eof <-> r = [])).
Proof. exact progress_char. Qed.
Print Assumptions C05_progress_partial.

Example C05_nonvacuous :
  Forall (unit_ok Utf8) [0xE2; 0x82; 0xE2] /\
  recover_code_point (parse_code_point Utf8 [0xE2; 0x82; 0xE2]) = 2%nat.
Proof.
  split; [|vm_compute; reflexivity].
  repeat constructor; unfold unit_ok; cbn; lia.
Qed.
