(** Property theorems C59: [lexy::as_string]. *)
From Verif Require Import Prelude CodecModel CodecSpec LitModel StrModel StrSpec StrProofs.
Open Scope N_scope.

(** As a sink it makes the concatenation of the text of its arguments, where a code point
    contributes its well-formed encoding. *)
Theorem C59_sink : forall fold e ps, Forall (piece_ok e) ps ->
  exists us, Forall2 (piece_text e) ps us /\ string_sink fold NoFold e ps = Some (concat us).
Proof.
  intros fold e ps H. destruct (sink_text e ps _ [] H eq_refl) as (us & Hu & Hr).
  exists us. split; [exact Hu|]. unfold string_sink. now rewrite Hr.
Qed.
Print Assumptions C59_sink.

(** The callback does what the sink does with that one argument, also with case folding. *)
Theorem C59_callback : forall fold f e,
  (forall s, string_cb fold f e (SString s) = string_sink fold f e [PString s]) /\
  (forall s, string_cb fold f e (SRange s) = string_sink fold f e [PRange s]) /\
  (forall s, string_cb fold f e (SLexeme s) = string_sink fold f e [PLexeme s]) /\
  (forall cp, string_cb fold f e (SCodePoint cp) = string_sink fold f e [PCodePoint cp]) /\
  string_cb fold f e SNullopt = string_sink fold f e [].
Proof.
  intros fold f e. destruct (no_fold_callback fold f e) as (H1 & H2 & H3 & H4).
  exact (conj H1 (conj H2 (conj H3 (conj H4 (nullopt_callback fold f e))))).
Qed.
Print Assumptions C59_callback.

(** Reading the string of code points gives back the code points.  Missing: in UTF-16, those
    that are decoded wrongly (C03). *)
Theorem C59_roundtrip_partial : forall fold e cps, Forall (reads_back e) cps ->
  exists s, string_sink fold NoFold e (map PCodePoint cps) = Some s /\ text_of e cps s /\
  forall fuel, (length cps < fuel)%nat -> read_code_points fuel e s = Some cps.
Proof.
  intros fold e cps H. exists (concat (map (encode_code_point e) cps)). split; [|split].
  - unfold string_sink. now rewrite sink_cps.
  - apply encode_text_of. revert H. apply Forall_impl. intros a Ha. apply Ha.
  - intros fuel Hf. now apply read_back.
Qed.
Print Assumptions C59_roundtrip_partial.

(** [.case_folding(ascii::case_folding)]: the string that would have been made, in lower case. *)
Theorem C59_ascii_case_folding : forall fold e ps s,
  string_sink fold NoFold e ps = Some s -> ~ In (eof e) s ->
  string_sink fold AsciiFold e ps = Some (map ascii_lower s).
Proof. unfold string_sink. intros fold e ps s [= <-] H. now apply ascii_fold_ok. Qed.
Print Assumptions C59_ascii_case_folding.

(** [.case_folding(unicode::simple_case_folding)]: the text of the folded code points.  Missing:
    UTF-16 as above, and a folding that maps to such a code point. *)
Theorem C59_unicode_case_folding_partial : forall fold e ps s cps,
  e <> Utf32 -> string_sink fold NoFold e ps = Some s -> text_of e cps s ->
  Forall (reads_back e) cps -> Forall (fun c => reads_back e (fold c)) cps ->
  exists s', string_sink fold UnicodeFold e ps = Some s' /\ text_of e (map fold cps) s'.
Proof.
  unfold string_sink. intros fold e ps s cps He [= Hs] Ht Hc Hf.
  destruct (text_encode _ _ _ Ht) as (Heq & _). rewrite Hs, Heq.
  exists (concat (map (encode_code_point e) (map fold cps))). split; [now apply unicode_fold_ok|].
  apply encode_text_of. rewrite Forall_map. revert Hf. apply Forall_impl. intros a Ha. apply Ha.
Qed.
Print Assumptions C59_unicode_case_folding_partial.
Theorem C59_unicode_case_folding_utf32 : forall fold ps s,
  string_sink fold NoFold Utf32 ps = Some s -> ~ In (eof Utf32) s ->
  (forall c, c <= 0x10FFFF -> fold c <= 0x10FFFF) ->
  string_sink fold UnicodeFold Utf32 ps = Some (map (fun c => if c <=? 0x10FFFF then fold c else c) s).
Proof. unfold string_sink. intros fold ps s [= <-] H Hv. now apply utf32_fold_ok. Qed.
Print Assumptions C59_unicode_case_folding_utf32.

Example C59_example :
  let fold := fun c => if c =? 0xC4 then 0xE4 else if c =? 0x41 then 0x61 else c in
  string_sink fold NoFold Utf8 [PChar 0x41; PCodePoint 0xC4; PLexeme [0x42; 0x43]] = Some [0x41; 0xC3; 0x84; 0x42; 0x43] /\
  string_sink fold AsciiFold Utf8 [PChar 0x41; PCodePoint 0xC4; PLexeme [0x42; 0x43]] = Some [0x61; 0xC3; 0x84; 0x62; 0x63] /\
  string_sink fold UnicodeFold Utf8 [PChar 0x41; PCodePoint 0xC4; PLexeme [0x42; 0x43]] = Some [0x61; 0xC3; 0xA4; 0x42; 0x43] /\
  string_sink fold UnicodeFold Utf32 [PChar 0x41; PCodePoint 0xC4] = Some [0x61; 0xE4] /\
  Forall (reads_back Utf8) [0x41; 0xC4; 0x10FFFF] /\
  read_code_points 4 Utf8 [0x41; 0xC3; 0x84; 0x42] = Some [0x41; 0xC4; 0x42].
Proof.
  cbn zeta. do 4 (split; [vm_compute; reflexivity|]). split; [|vm_compute; reflexivity].
  repeat constructor; unfold scalar; try lia; intros; discriminate.
Qed.

(** Finding: with Unicode case folding of UTF-8 or UTF-16, a string that is not well-formed loses
    everything from the first trailing unit without a leading one: "a\x80b" becomes "a".  With ASCII
    case folding of UTF-8 (or ASCII) strings, everything after a byte 0xFF stays as it was. *)
Theorem C59_ill_formed_refuted :
  (forall fold, string_sink (fun c => c) UnicodeFold Utf8 [PLexeme [0x61; 0x80; 0x62]] = Some [0x61] /\
                string_sink fold AsciiFold Utf8 [PLexeme [0x41; 0xFF; 0x42]] = Some [0x61; 0xFF; 0x42]).
Proof. intros fold. split; vm_compute; reflexivity. Qed.
Print Assumptions C59_ill_formed_refuted.
