(** Property theorems C23-C25: literals, literal sets and case folding. *)
From Verif Require Import Prelude CodecModel CodecSpec SwarModel SwarLanes SwarSpec BufferModel
  BufferReads LitModel LitSpec LitProofs.
From Coq Require Import Permutation.
Open Scope N_scope.

(** ** C23 *)
(** Refuted as stated: LEXY_LIT("ab") on the UTF-32 buffer "ax" matches one unit but
    the error's index is 4, past the end of the two-unit literal (literal.hpp:45). *)
Theorem C23_literal_utf32_refuted : exists contents cs end_,
  contents = [0x61; 0x78] /\ cs = [0x61; 0x62] /\
  match_literal 32 8 cs (buffer_mem 0xFFFFFFFF contents) 0 = Fin false end_ /\
  lit_error 0 cs end_ = (0, 4, 2)%nat /\ leading cs contents 1.
Proof.
  do 3 eexists. split; [reflexivity|]. split; [reflexivity|]. split; [vm_compute; reflexivity|].
  split; [vm_compute; reflexivity|]. repeat split; cbn; try lia. right. discriminate.
Qed.
Print Assumptions C23_literal_utf32_refuted.

(** Refuted as stated: a literal containing the encoding's in-band end marker
    matches at the end of the input and moves past it; u8"\xFF" on the empty UTF-8
    input. *)
Theorem C23_eof_unit_refuted : exists cs,
  lit_try (raw (Enc Utf8) []) cs 0%nat = (true, 1%nat) /\ ~ starts_with cs [].
Proof. exists [0xFF]. split; [reflexivity|]. intros [r Hr]. discriminate. Qed.
Print Assumptions C23_eof_unit_refuted.

(** What holds, on range inputs of every encoding: success exactly when the input
    starts with the literal; exactly the matching units are consumed and stay inside
    the input; the error's index is the number of leading units that did match.
    Missing: literals containing the in-band end marker (refuted above). *)
Theorem C23_literal_range_partial : forall E inp cs pos,
  no_eof E cs -> (pos <= length inp)%nat ->
  exists ok k, lit_try (raw E inp) cs pos = (ok, (pos + k)%nat) /\
    leading cs (skipn pos inp) k /\ (ok = true <-> starts_with cs (skipn pos inp)) /\
    (ok = true -> k = length cs) /\ (pos + k <= length inp)%nat /\
    lit_error pos cs (pos + k)%nat = (pos, k, length cs).
Proof. exact literal_range. Qed.
Print Assumptions C23_literal_range_partial.

(** The same on buffers, where literals are compared a word at a time.  The error's
    index is right if the literal's character width [wl] is the input's [w] or the
    literal is shorter than a word; success and consumption are right regardless.
    Missing: the index when the widths differ (refuted above). *)
Theorem C23_literal_buffer_partial : forall w wl contents cs pos,
  width_ok w -> Forall (fun x => x < 2 ^ w) contents -> ~ In (2 ^ w - 1) contents ->
  Forall (fun x => x < 2 ^ w) cs -> ~ In (2 ^ w - 1) cs -> (pos <= length contents)%nat ->
  exists ok k, match_literal w wl cs (buffer_mem (2 ^ w - 1) contents) pos = Fin ok (pos + k)%nat /\
    (ok = true <-> starts_with cs (skipn pos contents)) /\ (ok = true -> k = length cs) /\
    (wl = w \/ (length cs < swar_length w)%nat ->
       leading cs (skipn pos contents) k /\ (pos + k <= length contents)%nat /\
       lit_error pos cs (pos + k)%nat = (pos, k, length cs)).
Proof. exact literal_buffer. Qed.
Print Assumptions C23_literal_buffer_partial.

Example C23_nonvacuous :
  lit_try (raw (Enc Utf16) [0x31; 0x61; 0x62; 0x63]) [0x61; 0x62; 0x64] 1%nat = (false, 3%nat) /\
  lit_try (raw Default [0x31; 0x61; 0xFF]) [0x61; 0xFF] 1%nat = (true, 3%nat) /\
  no_eof Default [0x61; 0xFF].
Proof. repeat split; try (vm_compute; reflexivity). unfold no_eof. vm_compute. intuition discriminate. Qed.

(** ** C24 *)
(** An identifier character, for the keyword examples. *)
Definition alpha_next (l : list N) : bool :=
  match l with c :: _ => (0x61 <=? c) && (c <=? 0x7A) | [] => false end.
Definition int_lit := Literal [0x69; 0x6E; 0x74] 0 None.
Definition int_keyword := Literal [0x69; 0x6E; 0x74] 0 (Some alpha_next).

(** Refuted as stated: a set listing LEXY_LIT("int") and the keyword "int" shares one
    trie node, whose character class then also restricts the plain literal; "inty" is
    rejected although the literal applies. *)
Theorem C24_shared_keyword_refuted : exists rest,
  rest = [0x69; 0x6E; 0x74; 0x79] /\
  set_try (fun c => c) NoFold (Enc Utf8) [int_lit; int_keyword] rest 0 = Match None 0%nat /\
  applies int_lit rest /\
  set_try (fun c => c) NoFold (Enc Utf8) [int_lit] rest 0 = Match (Some 0) 3%nat.
Proof.
  eexists. split; [reflexivity|]. split; [vm_compute; reflexivity|]. split; [|vm_compute; reflexivity].
  split; [now exists [0x79]|]. discriminate.
Qed.
Print Assumptions C24_shared_keyword_refuted.

(** What holds: for every set in which no string is listed with two different
    meanings, the set matches exactly when some literal applies, it takes the longest
    one, reports its value and consumes exactly it; otherwise nothing is consumed.
    Missing: sets that list one string both as keyword and as literal. *)
Theorem C24_longest_match_partial : forall fold E ls inp pos,
  consistent ls -> no_eof E inp -> (forall l, In l ls -> no_eof E (l_units l)) ->
  (pos <= length inp)%nat ->
  (exists l, longest ls (skipn pos inp) l /\
     set_try fold NoFold E ls inp pos = Match (Some (l_value l)) (pos + length (l_units l))%nat) \/
  (none_applies ls (skipn pos inp) /\ set_try fold NoFold E ls inp pos = Match None pos).
Proof. exact set_try_spec. Qed.
Print Assumptions C24_longest_match_partial.

(** The order (and multiplicity) of listing is irrelevant. *)
Theorem C24_order_irrelevant_partial : forall fold E ls ls' inp pos,
  (forall l, In l ls <-> In l ls') ->
  consistent ls -> no_eof E inp -> (forall l, In l ls -> no_eof E (l_units l)) ->
  (pos <= length inp)%nat ->
  set_try fold NoFold E ls inp pos = set_try fold NoFold E ls' inp pos.
Proof. exact set_try_same_members. Qed.
Print Assumptions C24_order_irrelevant_partial.

Definition ex_set := [Literal [0x2D] 0 None; Literal [0x2D; 0x3E] 1 None;
                      Literal [0x2D; 0x2D; 0x3E] 2 None; Literal [0x69; 0x66] 3 (Some alpha_next)].
Example C24_nonvacuous :
  consistent ex_set /\
  set_try (fun c => c) NoFold (Enc Utf8) ex_set [0x2D; 0x2D; 0x20] 0 = Match (Some 0) 1%nat /\
  set_try (fun c => c) NoFold (Enc Utf8) ex_set [0x2D; 0x3E; 0x20] 0 = Match (Some 1) 2%nat /\
  set_try (fun c => c) NoFold (Enc Utf8) ex_set [0x69; 0x66; 0x66] 0 = Match None 0%nat /\
  set_try (fun c => c) NoFold (Enc Utf8) (rev ex_set) [0x69; 0x66; 0x28] 0 = Match (Some 3) 2%nat.
Proof.
  split; [|repeat split; vm_compute; reflexivity].
  intros l l' H H' E. cbn in H, H'. intuition subst; try discriminate; auto.
Qed.

(** ** C25 *)
(** Refuted as stated: unicode::simple_case_folding on a literal set over UTF-8.  The
    trie matcher wraps the folding reader again at every node and resets it without
    its buffer: the set {"ab"} on "ab" matches but consumes one unit only, and the
    set {"abb"} matches "ab". *)
Theorem C25_unicode_set_refuted :
  set_try (fun c => c) UnicodeFold (Enc Utf8) [Literal [0x61; 0x62] 0 None] [0x61; 0x62] 0
    = Match (Some 0) 1%nat /\
  set_try (fun c => c) UnicodeFold (Enc Utf8) [Literal [0x61; 0x62; 0x62] 0 None] [0x61; 0x62] 0
    = Match (Some 0) 1%nat.
Proof. split; vm_compute; reflexivity. Qed.
Print Assumptions C25_unicode_set_refuted.

(** ASCII case folding of a literal, every encoding: it matches exactly the texts
    whose lower case form is the literal, consumes exactly that text, and on a
    mismatch ends after the units that did match. *)
Theorem C25_ascii_literal_partial : forall E inp cs pos,
  no_eof E cs -> (pos <= length inp)%nat ->
  exists ok k, cfl_ascii E inp cs pos = (ok, (pos + k)%nat) /\
    leading cs (map lower (skipn pos inp)) k /\
    (ok = true <-> exists consumed rest, skipn pos inp = consumed ++ rest /\ map lower consumed = cs) /\
    (ok = true -> k = length cs) /\ (pos + k <= length inp)%nat.
Proof. exact ascii_literal. Qed.
Print Assumptions C25_ascii_literal_partial.

(** ASCII case folding of a literal set (symbol table, operators): the outcome and
    the positions are those of the plain set on the lower case input. *)
Theorem C25_ascii_set_partial : forall fold E ls inp pos,
  set_try fold AsciiFold E ls inp pos = set_try fold NoFold E ls (map lower inp) pos.
Proof. exact ascii_set. Qed.
Print Assumptions C25_ascii_set_partial.

(** Unicode case folding of a single literal, UTF-8 and UTF-16, for every folding
    function: the literal matches exactly if its code points are the folded leading
    code points of the text, and exactly those are consumed; a mismatch ends on a code
    point boundary after the ones that did match. *)
Theorem C25_unicode_literal_partial : forall fold e inp lcps cps pos,
  e = Utf8 \/ e = Utf16 ->
  no_eof (Enc e) inp -> skipn pos inp = text e cps ->
  Forall (readable e) lcps -> Forall (readable e) cps -> Forall (fun c => readable e (fold c)) cps ->
  exists ok k,
    cfl_unicode fold e inp (lcp_string e lcps) pos = (ok, (pos + length (text e (firstn k cps)))%nat) /\
    leading lcps (map fold cps) k /\ (ok = true <-> k = length lcps).
Proof. exact unicode_literal. Qed.
Print Assumptions C25_unicode_literal_partial.

(** UTF-32: single literals and literal sets (for sets the folding must be
    idempotent). *)
Theorem C25_unicode_utf32_partial :
  (forall fold inp cs pos, no_eof (Enc Utf32) cs -> (pos <= length inp)%nat ->
     exists ok k, cfl_unicode fold Utf32 inp cs pos = (ok, (pos + k)%nat) /\
       leading cs (map (simple_case_fold fold) (skipn pos inp)) k /\
       (ok = true <-> k = length cs) /\ (pos + k <= length inp)%nat) /\
  (forall fold ls inp pos,
     (forall c, simple_case_fold fold (simple_case_fold fold c) = simple_case_fold fold c) ->
     set_try fold UnicodeFold (Enc Utf32) ls inp pos
     = set_try fold NoFold (Enc Utf32) ls (map (simple_case_fold fold) inp) pos).
Proof. exact (conj utf32_literal utf32_set). Qed.
Print Assumptions C25_unicode_utf32_partial.

Definition fold_A (c : N) : N := if c =? 0xC4 then 0xE4 else lower c.
Example C25_nonvacuous :
  cfl_ascii (Enc Utf8) [0x31; 0x41; 0x62; 0x43] [0x61; 0x62; 0x63] 1 = (true, 4%nat) /\
  cfl_unicode fold_A Utf8 (text Utf8 [0xC4; 0x42; 0x63]) (lcp_string Utf8 [0xE4; 0x62]) 0 = (true, 3%nat) /\
  Forall (readable Utf8) [0xC4; 0x42; 0x63] /\
  Forall (fun c => readable Utf8 (fold_A c)) [0xC4; 0x42; 0x63] /\
  no_eof (Enc Utf8) (text Utf8 [0xC4; 0x42; 0x63]) /\
  set_try fold_A AsciiFold (Enc Utf8) ex_set [0x49; 0x46; 0x28] 0 = Match (Some 3) 2%nat /\
  set_try fold_A UnicodeFold (Enc Utf32) ex_set [0x49; 0x46; 0x28] 0 = Match (Some 3) 2%nat.
Proof.
  split; [reflexivity|]. split; [vm_compute; reflexivity|].
  split; [repeat constructor; cbn; lia|]. split; [repeat constructor; vm_compute; intuition discriminate|].
  split; [vm_compute; intuition discriminate|]. split; vm_compute; reflexivity.
Qed.
