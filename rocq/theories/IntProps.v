(** Properties C20 (integer conversion) and C21 (digit tokens). *)
From Verif Require Import Prelude SwarModel SwarSpec SwarProofs SwarProps BufferModel BufferSpec BufferReads IntModel IntSpec IntProofs.
Open Scope N_scope.

(** C20 as stated fails: the text "255u" (a user-defined integer token with a
    suffix) spells 255, which fits into eight bits, but is reported as an overflow,
    because the converter compares the position behind the last digit it may need with
    the end of the text (integer.hpp:338-340). *)
Theorem C20_trailing_refuted : exists us,
  us = [0x32; 0x35; 0x35; 0x75] /\
  spelled Decimal us = 255 /\ ity_max (Int 8 false) = 255 /\
  bounded_parse (Int 8 false) Decimal false us = Conv 255 true.
Proof. eexists. split; [reflexivity|]. split; [|split]; vm_compute; reflexivity. Qed.
Print Assumptions C20_trailing_refuted.

(** The same through [dsl::integer] with digit separators: recovering from the dangling
    separator in "255_" the rule reports an overflow of the value 255. *)
Theorem C20_recovery_refuted : exists us tk,
  us = [0x32; 0x35; 0x35; 0x5F] /\ digits_s_tok Decimal underscore us = Some tk /\
  spelled Decimal us = ity_max (Int 8 false) /\
  overflow_reported (int_p Decimal (bounded_parse (Int 8 false) Decimal false) tk us).
Proof.
  do 2 eexists. split; [reflexivity|]. split; [vm_compute; reflexivity|].
  split; [vm_compute; reflexivity|]. exists 0%nat, 4%nat. vm_compute. auto 6.
Qed.
Print Assumptions C20_recovery_refuted.

(** C20, conversion: for every target type, base and text the conversion has no
    undefined behaviour; a value delivered without overflow is the number the
    digits spell and fits; a number that does not fit is an overflow; and a number
    that fits is no overflow provided the text ends with a digit.
    Missing from the full statement: the proviso (refuted above). *)
Theorem C20_exact_partial : forall t b assume us,
  ity_ok t b -> units32 us -> (assume = true -> Forall (is_digit b) us) ->
  exists v o, bounded_parse t b assume us = Conv v o /\
    (o = false -> v = spelled b us /\ spelled b us <= ity_max t) /\
    (ity_max t < spelled b us -> o = true) /\
    (spelled b us <= ity_max t -> us = [] \/ ends_with_digit b us -> o = false).
Proof. exact bounded_spec. Qed.
Print Assumptions C20_exact_partial.

(** C20 for the rules: [integer<T>(digits<Base>)] with and without no_leading_zero,
    whether or not the digits token failed for a leading zero, and with separators
    when the token matches, and [integer<T>(n_digits<N>)]: the number spelled by the
    consumed text is delivered if it fits, without an overflow error, and there is an
    overflow error if it does not. *)
Theorem C20_integer_rule : forall t b rest, ity_ok t b -> units32 rest ->
  (let n := digit_run b rest in
   (n = 0%nat -> forall assume,
      int_p b (bounded_parse t b assume) (digits_tok b rest) rest = IFail [ITokenError] /\
      int_p b (bounded_parse t b assume) (digits_t_tok b rest) rest = IFail [ITokenError]) /\
   (n <> 0%nat -> forall assume,
      int_exact t b rest n (int_p b (bounded_parse t b assume) (digits_tok b rest) rest) /\
      int_exact t b rest n (int_p b (bounded_parse t b assume) (digits_t_tok b rest) rest))) /\
  (forall sep tk, sep_token b sep ->
     digits_s_tok b sep rest = Some tk \/ digits_st_tok b sep rest = Some tk -> t_ok tk = true ->
     int_exact t b rest (t_end tk) (int_p b (bounded_parse t b false) tk rest)) /\
  (forall n, (2 <= n)%nat -> t_ok (ndigits_tok n b rest) = true ->
     int_exact t b rest n (int_p b (ndigits_parse n t b true) (ndigits_tok n b rest) rest)).
Proof.
  intros t b rest Hok Hu. split; [exact (integer_digits t b rest Hok Hu)|]. split.
  - intros sep tk Hs. exact (integer_sep t b sep rest tk Hok Hu Hs).
  - intros n. exact (integer_ndigits n t b rest Hok Hu).
Qed.
Print Assumptions C20_integer_rule.

Example C20_nonvacuous :
  let d := [0x30; 0x30; 0x32; 0x35; 0x35] in let o := [0x32; 0x35; 0x36] in
  ity_ok (Int 8 false) Decimal /\ ity_ok CodePoint Hex /\ ity_ok (Bounded 32 true 1000) Decimal /\
  units32 d /\ bounded_parse (Int 8 false) Decimal true d = Conv 255 false /\
  bounded_parse (Int 8 true) Decimal true [0x31; 0x32; 0x38] = Conv 12 true /\
  snd (match bounded_parse (Int 8 false) Decimal true o with Conv v f => (v, f) | _ => (0, false) end) = true /\
  spelled Decimal o = 256 /\
  bounded_parse CodePoint Hex true [0x31; 0x30; 0x66; 0x46; 0x46; 0x46] = Conv 0x10FFFF false /\
  bounded_parse (Bounded 32 true 1000) Decimal true [0x31; 0x30; 0x30; 0x30] = Conv 1000 false.
Proof.
  cbn zeta. unfold ity_ok.
  split; [split; [vm_compute; discriminate|cbn; auto]|].
  split; [split; [vm_compute; discriminate|cbn; auto]|].
  split; [split; [vm_compute; discriminate|split; [cbn; auto|vm_compute; discriminate]]|].
  split; [repeat constructor|].
  repeat split; vm_compute; reflexivity.
Qed.

(** C21, plain digits: [digits<Base>] matches exactly the maximal run of digits, and
    fails on an empty run; [n_digits<N>] matches iff the next N units are digits. *)
Theorem C21_digits : forall b rest,
  (let n := t_end (digits_tok b rest) in
   maximal_digits b rest n /\ (t_ok (digits_tok b rest) = true <-> n <> 0%nat)) /\
  (forall n,
   (t_ok (ndigits_tok n b rest) = true <->
      (n <= length rest)%nat /\ Forall (is_digit b) (firstn n rest)) /\
   (t_ok (ndigits_tok n b rest) = true -> t_end (ndigits_tok n b rest) = n)).
Proof. intros b rest. split; [exact (digits_spec b rest)|]. intros n. exact (ndigits_tok_spec n b rest). Qed.
Print Assumptions C21_digits.

(** C21, no_leading_zero: the same texts without those of several digits beginning
    with a zero; these are reported as a forbidden leading zero behind the zero. *)
Theorem C21_no_leading_zero : forall b rest,
  (forall n, digits_t_tok b rest = Tok true n false <->
     digits_tok b rest = Tok true n false /\ (n = 1%nat \/ hd 0 rest <> 48)) /\
  (t_zero (digits_t_tok b rest) = true <->
     exists n, digits_tok b rest = Tok true n false /\ n <> 1%nat /\ hd 0 rest = 48) /\
  (t_zero (digits_t_tok b rest) = true -> digits_t_tok b rest = Tok false 1 true) /\
  (t_ok (digits_tok b rest) = false -> digits_t_tok b rest = Tok false 0 false).
Proof. exact digits_t_spec. Qed.
Print Assumptions C21_no_leading_zero.

(** C21, separators, fails for buffer input: on "123456789_1" the token ends in front of
    the separator although the text goes on with a separator and a digit (see
    also C06_digit_separator_refuted). *)
Theorem C21_separator_buffer_refuted : exists contents,
  contents = [0x31; 0x32; 0x33; 0x34; 0x35; 0x36; 0x37; 0x38; 0x39; 0x5F; 0x31] /\
  digits_sep_swar 100 8 Cdecimal underscore (buffer_mem 0xFF contents) 1 = Fin true 9 /\
  ~ stops Decimal underscore (skipn 9 contents) /\
  digit_text Decimal underscore contents 10 11.
Proof.
  eexists. split; [reflexivity|]. split; [vm_compute; reflexivity|].
  split; [intros (H & _); vm_compute in H; discriminate|].
  do 8 (apply DT_next; [vm_compute; eauto|]).
  apply (DT_sep _ _ _ _ 1 1 1); [vm_compute; eauto|reflexivity|]. apply DT_one. vm_compute; eauto.
Qed.
Print Assumptions C21_separator_buffer_refuted.

(** C21, separators, on every input whose reader has no word access: the token always
    ends; it succeeds exactly on digits with single separators between
    them, neither followed by another digit nor by a separator; a dangling separator is
    consumed and fails; no_leading_zero removes the texts beginning with a zero that are
    longer than one; [n_digits<N>.sep] accepts exactly N digits.  Missing from
    the full statement: buffers (refuted above). *)
Theorem C21_separator_partial : forall b sep rest, sep_token b sep ->
  (exists tk, digits_s_tok b sep rest = Some tk /\
    (forall n, t_ok tk = true /\ t_end tk = n <->
       (exists k, digit_text b sep rest k n) /\ stops b sep (skipn n rest)) /\
    (t_ok tk = false ->
       (t_end tk = 0%nat /\ match rest with c :: _ => ~ is_digit b c | [] => True end) \/
       exists k m j, digit_text b sep rest k m /\ sep (skipn m rest) = Some j /\
         t_end tk = (m + j)%nat /\
         match skipn (t_end tk) rest with c :: _ => ~ is_digit b c | [] => True end) /\
    digits_st_tok b sep rest =
      Some (if t_ok tk && (1 <? t_end tk)%nat && (hd 0 rest =? 48) then Tok false 1 true else tk)) /\
  (forall n e, (1 <= n)%nat ->
     (t_ok (ndigits_s_tok n b sep rest) = true /\ t_end (ndigits_s_tok n b sep rest) = e) <->
     digit_text b sep rest n e).
Proof.
  intros b sep rest Hs. split; [exact (digits_s_spec b sep rest Hs)|].
  intros n e Hn. exact (ndigits_s_tok_spec n b sep rest Hs Hn e).
Qed.
Print Assumptions C21_separator_partial.

Example C21_nonvacuous :
  let us := [0x31; 0x5F; 0x32; 0x33; 0x2B] in
  sep_token Decimal underscore /\ digits_s_tok Decimal underscore us = Some (Tok true 4 false) /\
  digits_s_tok Decimal underscore [0x31; 0x5F; 0x5F; 0x32] = Some (Tok false 2 false) /\
  digits_t_tok Decimal [0x30; 0x31] = Tok false 1 true /\
  ndigits_s_tok 3 Decimal underscore us = Tok true 4 false.
Proof.
  cbn zeta. split.
  - intros rest m H. destruct rest as [|c r]; [discriminate|]. cbn [underscore] in H.
    destruct (N.eq_dec c 0x5F) as [->|Hne].
    + vm_compute in H. injection H as <-. split; [cbn; lia|]. intros (d & Hd). vm_compute in Hd. discriminate.
    + exfalso. unfold underscore in H. cbn in H.
      repeat match type of H with context [match ?x with _ => _ end] => is_var x; destruct x end;
        try discriminate; congruence.
  - repeat split; vm_compute; reflexivity.
Qed.
