(** Theorems about inputs over memory, readers and byte order marks: C83. *)
From Verif Require Import Prelude.
From Verif Require Import CodecModel InpModel InpSpec InpProofs.
Close Scope N_scope.
Open Scope nat_scope.

(** An input of [n] units at [d] in memory, made from a pointer and a size, from
    two pointers, or from a view: whatever is called on its reader, the calls are
    defined exactly if they are a legal use of the text (nothing is bumped over at
    its end, markers are ones that were taken), and what is seen are the units
    of the text in order, then the end marker, and the matching positions.  Nothing outside of the
    text is looked at. *)
Theorem C83_reader : forall sg e mem d n calls,
  d + n <= length mem -> (Z.of_nat (length mem) < 2 ^ 63)%Z ->
  sin_range d (d + n) = sin_size d (N.of_nat n) /\
  exists r, sin_reader mem (sin_size d (N.of_nat n)) = Some r /\
    (forall l, uses (slice mem d n) 0 [] calls l ->
       rd_run sg e mem r [] calls = Some (map (shown sg e (Some d)) l)) /\
    (rd_run sg e mem r [] calls <> None -> exists l, uses (slice mem d n) 0 [] calls l).
Proof.
  intros sg e mem d n calls H Hl. split.
  { rewrite range_is by lia. f_equal. lia. }
  exists (rdat (Some d) (slice mem d n) 0).
  assert (Hh := slice_holds mem d n H). split; [|split].
  - rewrite reader_size by assumption. unfold rdat, at_ptr.
    now rewrite (slice_length _ _ _ H), Nat.add_0_r.
  - intros l Hu. apply (run_uses sg e mem (Some d) _ Hh calls 0 [] l); [lia|constructor|exact Hu].
  - intros Hn. destruct (rd_run _ _ _ _ _ _) as [s|] eqn:E; [|congruence].
    apply (uses_run sg e mem (Some d) _ Hh calls 0 [] s); [lia|constructor|exact E].
Qed.
Print Assumptions C83_reader.

Example C83_reader_case :
  (2 + 3 <= length [1; 2; 0xC3; 0xA4; 5; 6; 7]%N /\
   uses (slice [1; 2; 0xC3; 0xA4; 5; 6; 7]%N 2 3) 0 []
     [Peek; Save; Bump; Bump; Peek; Bump; Peek; Position; Back 0; Position; Peek]
     [VUnit 0xC3; VUnit 5; VEnd; VAt 3; VAt 0; VUnit 0xC3]) /\
  match sin_reader [1; 2; 0xC3; 0xA4; 5; 6; 7]%N (sin_range 2 5) with
  | Some r =>
    rd_run true EUtf8c [1; 2; 0xC3; 0xA4; 5; 6; 7]%N r []
      [Peek; Save; Bump; Bump; Peek; Bump; Peek; Position; Back 0; Position; Peek]
    = Some [SPeek (-61); SPeek 5; SPeek (-1); SPos (Some 5); SPos (Some 2); SPeek (-61)]
  | None => False
  end.
Proof.
  split; [|vm_compute; reflexivity]. split; [cbn; lia|].
  apply U_unit; [reflexivity|]. apply U_save. apply U_bump; [cbn; lia|].
  apply U_bump; [cbn; lia|]. apply U_unit; [reflexivity|]. apply U_bump; [cbn; lia|].
  apply U_end; [reflexivity|]. apply U_at. eapply U_back; [reflexivity|].
  apply U_at. apply U_unit; [reflexivity|]. constructor.
Qed.

(** An input made without arguments is the empty text. *)
Theorem C83_empty : forall sg e mem calls,
  exists r, sin_reader mem sin_default = Some r /\
    (forall l, uses [] 0 [] calls l ->
       rd_run sg e mem r [] calls = Some (map (shown sg e None) l)) /\
    (rd_run sg e mem r [] calls <> None -> exists l, uses [] 0 [] calls l).
Proof.
  intros sg e mem calls. exists (Rd None None). split; [reflexivity|]. split.
  - intros l Hu. apply (run_uses sg e mem None [] eq_refl calls 0 [] l); [cbn; lia|constructor|exact Hu].
  - intros Hn. destruct (rd_run _ _ _ _ _ _) as [s|] eqn:E; [|congruence].
    apply (uses_run sg e mem None [] eq_refl calls 0 [] s); [cbn; lia|constructor|exact E].
Qed.
Print Assumptions C83_empty.

Example C83_empty_case : uses [] 0 [] [Save; Peek; Back 0; Position] [VEnd; VAt 0].
Proof.
  apply U_save, U_end; [reflexivity|]. eapply U_back; [reflexivity|]. apply U_at. constructor.
Qed.

(** Two pointers in the wrong order never give a reader. *)
Theorem C83_reversed : forall mem b e, e < b -> b <= length mem ->
  (Z.of_nat (length mem) < 2 ^ 63)%Z -> sin_reader mem (sin_range b e) = None.
Proof. intros mem b e H Hb Hl. now apply range_reversed. Qed.
Print Assumptions C83_reversed.

Example C83_reversed_case : sin_reader [1; 2; 3]%N (sin_range 2 1) = None.
Proof. vm_compute. reflexivity. Qed.

(** A null-terminated string: the input is the units before the first zero.  What
    comes after it does not matter, and without a zero the call is undefined. *)
Theorem C83_zstring : forall mem p n, (Z.of_nat (length mem) < 2 ^ 63)%Z ->
  p + n < length mem ->
  nth_error mem (p + n) = Some 0%N -> Forall (fun u => u <> 0%N) (slice mem p n) ->
  zstring mem p = Some (sin_size p (N.of_nat n)) /\
  forall mem', firstn (S (p + n)) mem' = firstn (S (p + n)) mem ->
    zstring mem' p = zstring mem p.
Proof.
  assert (G : forall mem p n, (Z.of_nat (p + n) < 2 ^ 63)%Z ->
    nth_error mem (p + n) = Some 0%N -> Forall (fun u => u <> 0%N) (slice mem p n) ->
    zstring mem p = Some (sin_size p (N.of_nat n))).
  { intros mem p n Hl H0 HF. unfold zstring.
    rewrite (proj2 (zscan_some (skipn p mem) p (p + n))).
    - rewrite range_is by lia. do 3 f_equal. lia.
    - exists n. rewrite nth_skipn. auto. }
  intros mem p n Hl Hn H0 HF. assert (E : zstring mem p = Some (sin_size p (N.of_nat n))).
  { apply G; [lia|assumption|assumption]. }
  split; [exact E|]. intros mem' Hm. rewrite E. apply G; [lia| |].
  - rewrite <- (nth_firstn mem' (S (p + n))) by lia. rewrite Hm. rewrite nth_firstn by lia. exact H0.
  - unfold slice in *.
    replace (firstn n (skipn p mem')) with (firstn n (skipn p mem)); [exact HF|].
    assert (C : forall l : list N, firstn n (skipn p l) = firstn n (skipn p (firstn (S (p + n)) l))).
    { intros l. rewrite skipn_firstn_comm, firstn_firstn. f_equal. lia. }
    rewrite (C mem), (C mem'). now rewrite Hm.
Qed.
Print Assumptions C83_zstring.

Theorem C83_unterminated : forall mem p, Forall (fun u => u <> 0%N) (skipn p mem) -> zstring mem p = None.
Proof. intros mem p H. unfold zstring. now rewrite (proj2 (zscan_none _ _) H). Qed.
Print Assumptions C83_unterminated.

Example C83_zstring_case :
  zstring [0; 72; 105; 0; 33; 0]%N 1 = Some (sin_size 1 2) /\
  nth_error [0; 72; 105; 0; 33; 0]%N (1 + 2) = Some 0%N /\
  Forall (fun u => u <> 0%N) (slice [0; 72; 105; 0; 33; 0]%N 1 2) /\
  zstring [0; 72; 105]%N 1 = None.
Proof. repeat split; repeat constructor; discriminate. Qed.

(** Different units are delivered as different integers. *)
Theorem C83_units : forall sg e u v, (u < cbound (char_type e))%N -> (v < cbound (char_type e))%N ->
  to_int sg e u = to_int sg e v -> u = v.
Proof. exact to_int_inj. Qed.
Print Assumptions C83_units.

Example C83_units_case : to_int true EAscii 0xE4 = (-28)%Z /\ to_int true EDefault 0xE4 = 228%Z /\
  to_int true EAscii 0x7F = 127%Z.
Proof. vm_compute. auto. Qed.

(** Peeking shows the end marker only at the end: not for every input. *)
Theorem C83_end_refuted : ~ forall sg e text u, Forall (fun u => (u < cbound (char_type e))%N) text ->
  In u text -> to_int sg e u <> ieof sg e.
Proof.
  intros H. apply (H true EUtf8 [0xFF%N] 0xFF%N); [repeat constructor|now left|reflexivity].
Qed.
Print Assumptions C83_end_refuted.

(** It is so for all inputs in the default encoding, bytes and UTF-16; in the
    others exactly one value of a unit looks like the end ... *)
Theorem C83_end_partial : forall sg e u, (u < cbound (char_type e))%N ->
  to_int sg e u = ieof sg e <->
  match e with
  | EDefault | EUtf16 | EByte => False
  | EAscii | EUtf8 | EUtf8c => u = 0xFF%N
  | EUtf32 => u = 0xFFFFFFFF%N
  end.
Proof. exact to_int_eof. Qed.
Print Assumptions C83_end_partial.

(** ... and it does not occur in text that is an encoding of characters. *)
Theorem C83_end_text : forall sg e E cps u, unicode e = Some E ->
  Forall (fun cp => cp_is_scalar cp = true /\ (e = EAscii -> cp <= 0x7F)%N) cps ->
  In u (concat (map (encode_code_point E) cps)) ->
  to_int sg e u <> ieof sg e.
Proof.
  intros sg e E cps u HE Hc Hu.
  apply in_concat in Hu. destruct Hu as (l & Hl & Hu). apply in_map_iff in Hl.
  destruct Hl as (cp & <- & Hcp). rewrite Forall_forall in Hc. destruct (Hc cp Hcp) as [Hs Ha].
  assert (HA : (E = Ascii -> cp <= 0x7F)%N).
  { intros ->. destruct e; try discriminate. now apply Ha. }
  assert (HF := encode_not_marker E cp Hs HA). rewrite Forall_forall in HF. specialize (HF u Hu).
  destruct e; cbn in HE; try discriminate; injection HE as <-; cbn in HF;
    rewrite to_int_eof by (cbn; lia); lia.
Qed.
Print Assumptions C83_end_text.

Example C83_end_text_case :
  Forall (fun cp => cp_is_scalar cp = true /\ (EUtf8 = EAscii -> cp <= 0x7F)%N) [0x10FFFF; 0xFF; 0x7F]%N /\
  concat (map (encode_code_point Utf8) [0x10FFFF; 0xFF; 0x7F]%N)
  = [0xF4; 0x8F; 0xBF; 0xBF; 0xC3; 0xBF; 0x7F]%N.
Proof. split; [repeat constructor; discriminate|vm_compute; reflexivity]. Qed.

(** [dsl::bom<be, en>] on bytes: it matches exactly if they start with U+FEFF written
    in the encoding and byte order, and ends after that; otherwise it ends where the
    bytes differ first.  Where there is no mark it matches nothing, always. *)
Theorem C83_bom : forall sg h8 mem d n be en r, d + n <= length mem ->
  sin_reader mem (sin_size d (N.of_nat n)) = Some r ->
  let k := shared (mark be en) (slice mem d n) in
  bom_parse sg h8 EByte mem r be en = Some (k =? length (mark be en), k) /\
  (k = length (mark be en) <-> exists rest, slice mem d n = mark be en ++ rest).
Proof.
  intros sg h8 mem d n be en r H Hr k. split.
  - unfold bom_parse. cbn [char_type]. rewrite transcode_byte, bom_is_mark.
    rewrite reader_size in Hr by assumption.
    replace r with (rdat (Some d) (slice mem d n) 0).
    + apply (match_is sg EByte mem (Some d) _ (slice_holds mem d n H) (mark be en) 0 0); [reflexivity|lia].
    + injection Hr as <-. unfold rdat, at_ptr. now rewrite (slice_length _ _ _ H), Nat.add_0_r.
  - subst k. generalize (slice mem d n). induction (mark be en) as [|c cs IH]; intros t; cbn.
    + split; [eauto|reflexivity].
    + destruct t as [|u t]; [split; [discriminate|intros [rest ?]; discriminate]|].
      destruct (N.eqb_spec c u) as [->|Hn].
      * split.
        -- intros [= Hs]. apply IH in Hs. destruct Hs as [rest ->]. eauto.
        -- intros [rest [= ->]]. f_equal. apply IH. eauto.
      * split; [discriminate|]. intros [rest [= ? _]]. congruence.
Qed.
Print Assumptions C83_bom.

Example C83_bom_case :
  mark EUtf16 Big = [0xFE; 0xFF]%N /\ mark EUtf32 Little = [0xFF; 0xFE; 0; 0]%N /\
  mark EUtf8 Big = [0xEF; 0xBB; 0xBF]%N /\ mark EDefault Little = [] /\
  option_map (fun r => bom_parse true true EByte [0xFF; 0xFE; 0; 7]%N r EUtf32 Little)
    (sin_reader [0xFF; 0xFE; 0; 7]%N (sin_size 0 4)) = Some (Some (false, 3)) /\
  option_map (fun r => bom_parse true true EByte [0xFF; 0xFE; 0; 7]%N r EUtf16 Little)
    (sin_reader [0xFF; 0xFE; 0; 7]%N (sin_size 0 4)) = Some (Some (true, 2)).
Proof. vm_compute. repeat split. Qed.

(** The mark of an encoding can be looked for in input of that encoding: not
    with the assertions of the library.  A mark can only be looked for in
    [unsigned char]s. *)
Theorem C83_bom_text_refuted : ~ forall sg h8 mem e r, sin_reader mem (sin_size 0 (N.of_nat (length mem))) = Some r ->
  bom_parse sg h8 e mem r e Big <> None.
Proof.
  intros H. apply (H true true [0xEF; 0xBB; 0xBF]%N EUtf8 (Rd (Some 0) (Some 3)));
    vm_compute; reflexivity.
Qed.
Print Assumptions C83_bom_text_refuted.

Theorem C83_bom_chars : forall sg h8 e mem r be en, mark be en <> [] ->
  e <> EByte -> (e = EUtf8 -> h8 = true) -> bom_parse sg h8 e mem r be en = None.
Proof.
  intros sg h8 e mem r be en H1 H2 H3. unfold bom_parse.
  rewrite transcode_none; [reflexivity|now rewrite bom_is_mark|assumption|assumption].
Qed.
Print Assumptions C83_bom_chars.

Example C83_bom_chars_case : mark EUtf8 Little <> [] /\ EUtf8c <> EByte.
Proof. split; discriminate. Qed.
