(** Property theorems C26-C29: identifiers and keywords, until, delimited, newline and eof. *)
From Verif Require Import Prelude CodecModel CodecSpec SwarModel SwarLanes SwarSpec SwarProofs BufferReads
  LitModel LitSpec ClassModel ClassSpec ClassProofs TextModel TextSpec TextProofs TextDel.
Open Scope N_scope.

(** ** C26 *)

(** The pattern of an identifier matches exactly a leading character followed by all the
    trailing characters there are. *)
Theorem C26_pattern : forall E lead trail rest,
  sane lead -> sane trail -> Forall (fun u => u < lbound E) rest ->
  (forall n, pattern_try E (build lead) (build trail) rest = TYes n <-> id_at E lead trail rest n) /\
  (pattern_try E (build lead) (build trail) rest = TNo <-> no_char E lead rest) /\
  pattern_try E (build lead) (build trail) rest <> TOut.
Proof. exact pattern_exact. Qed.
Print Assumptions C26_pattern.

(** As a branch, an identifier is taken exactly on an identifier that is not reserved, for all
    combinations of [reserve], [reserve_prefix], [reserve_containing] and [reserve_suffix],
    with or without ASCII case folding.  Missing: [reserve_suffix] where one of its words also
    occurs earlier in the identifier ([exact_on]; then it can be wrong, below), words with
    Unicode case folding or keywords with another class. *)
Theorem C26_branch_partial : forall fold E lead trail rs rest n,
  text_units E rest -> sane lead -> sane trail -> Forall (plain_words E) rs ->
  (forall m, exact_on rs (firstn m rest)) ->
  (id_try fold E (Ident (build lead) (build trail) rs) rest = TYes n <->
   id_at E lead trail rest n /\ ~ reserved_by rs (firstn n rest)).
Proof. exact id_branch. Qed.
Print Assumptions C26_branch_partial.

(** As a rule, it produces the same lexeme, and an error exactly if it is reserved; it fails
    exactly where no leading character is. *)
Theorem C26_rule_partial : forall fold E lead trail rs rest,
  text_units E rest -> sane lead -> sane trail -> Forall (plain_words E) rs ->
  (forall m, exact_on rs (firstn m rest)) ->
  (exists n b, id_parse fold E (Ident (build lead) (build trail) rs) rest = IdLexeme n b /\
     id_at E lead trail rest n /\ (b = true <-> reserved_by rs (firstn n rest))) \/
  (id_parse fold E (Ident (build lead) (build trail) rs) rest = IdExpected /\
   no_char E lead rest).
Proof. exact id_rule. Qed.
Print Assumptions C26_rule_partial.

(** Never is a word taken for reserved that is not. *)
Theorem C26_reserved_sound : forall fold E r lexeme,
  plain_words E r -> no_eof E lexeme ->
  exists b, is_reserved fold E r lexeme = Some b /\ (b = true -> reserves r lexeme) /\
    (rs_kind r <> Suffix \/ ~ overlapped r lexeme -> reserves r lexeme -> b = true).
Proof. exact reserved_spec. Qed.
Print Assumptions C26_reserved_sound.

(** A keyword matches exactly if the whole identifier at this position is the keyword. *)
Theorem C26_keyword : forall E lead trail rs cs rest n,
  text_units E rest -> sane lead -> sane trail -> text_units E cs ->
  id_text E lead trail cs (length cs) ->
  (keyword_try E (Ident (build lead) (build trail) rs) cs rest = (true, n) <->
   id_at E lead trail rest n /\ firstn n rest = cs).
Proof. exact keyword_exact. Qed.
Print Assumptions C26_keyword.

(** Where there is an identifier in the sense of the pattern, exactly one of the identifier
    rule and the reserved keywords matches. *)
Theorem C26_partition : forall fold E lead trail ws rest n,
  text_units E rest -> sane lead -> sane trail ->
  (forall w, In w ws -> text_units E w /\ id_text E lead trail w (length w)) ->
  id_at E lead trail rest n ->
  let i := Ident (build lead) (build trail) [reserve_words ws] in
  (~ In (firstn n rest) ws /\ id_try fold E i rest = TYes n /\
   forall w, In w ws -> fst (keyword_try E i w rest) = false) \/
  (In (firstn n rest) ws /\ id_try fold E i rest = TNo /\
   forall w, In w ws -> (fst (keyword_try E i w rest) = true <-> w = firstn n rest)).
Proof. exact partition. Qed.
Print Assumptions C26_partition.

(** [identifier(ascii::alpha, ascii::alnum)] on "if1", "if", "iff", with [if] and [int]
    reserved. *)
Example C26_example :
  let i := Ident (build (named Calpha)) (build (named Calnum))
             [reserve_words [[0x69; 0x66]; [0x69; 0x6E; 0x74]]] in
  let id rest := id_try (fun c => c) (Enc Utf8) i rest in
  let kw rest := keyword_try (Enc Utf8) i [0x69; 0x66] rest in
  id [0x69; 0x66; 0x31; 0x2B] = TYes 3%nat /\ fst (kw [0x69; 0x66; 0x31; 0x2B]) = false /\
  id [0x69; 0x66; 0x2B] = TNo /\ kw [0x69; 0x66; 0x2B] = (true, 2%nat) /\
  id_parse (fun c => c) (Enc Utf8) i [0x69; 0x66; 0x2B] = IdLexeme 2 true /\
  id [0x69; 0x66; 0x66] = TYes 3%nat /\ id [0x31; 0x69] = TNo.
Proof. vm_compute. auto 10. Qed.

Example C26_hypotheses :
  let rs := [reserve_words [[0x69; 0x66]];
             Reserve Prefix AsciiFold [Literal [0x5F; 0x61] 0 None];
             Reserve Containing NoFold [Literal [0x5F; 0x5F] 0 None];
             Reserve Suffix NoFold [Literal [0x5F; 0x74] 0 None]] in
  let rest := [0x78; 0x5F; 0x74; 0x2B] in
  text_units (Enc Utf8) rest /\ Forall (plain_words (Enc Utf8)) rs /\
  exact_on rs (firstn 3 rest) /\
  id_try (fun c => c) (Enc Utf8) (Ident (build (named Calphau)) (build (named Calphau)) rs) rest = TNo /\
  id_try (fun c => c) (Enc Utf8) (Ident (build (named Calphau)) (build (named Calphau)) rs)
    [0x78; 0x5F; 0x74; 0x78] = TYes 4%nat.
Proof.
  split; [|split; [|split; [|vm_compute; auto]]].
  - split; [repeat constructor; vm_compute; reflexivity|].
    intros H. cbn in H. repeat destruct H as [H|H]; try discriminate; contradiction.
  - repeat apply Forall_cons; try apply Forall_nil;
      (split; [discriminate|]; intros l Hl; cbn in Hl; destruct Hl as [<-|[]];
       split; [reflexivity|]; split; [reflexivity|]; intros H; cbn in H;
       repeat destruct H as [H|H]; try discriminate; contradiction).
  - repeat apply Forall_cons; try apply Forall_nil; try (left; discriminate). right.
    intros (a & v & b & H & Hb & Hv). cbn in Hv. destruct Hv as [<-|[]]. cbn in H.
    destruct a as [|a1 [|a2 [|a3 a]]]; cbn in H; inversion H; subst; try congruence.
    destruct a; discriminate.
Qed.

(** Finding: [reserve_suffix("aa")] does not reserve "aaa": the search goes on behind the
    first occurrence, although another one overlaps it and ends the identifier. *)
Theorem C26_suffix_refuted : exists E r lexeme,
  plain_words E r /\ no_eof E lexeme /\ rs_kind r = Suffix /\
  reserves r lexeme /\ is_reserved (fun c => c) E r lexeme = Some false.
Proof.
  exists (Enc Utf8), (Reserve Suffix NoFold [Literal [0x61; 0x61] 0 None]), [0x61; 0x61; 0x61].
  assert (Hne : forall l, Forall (fun c => c = 0x61) l -> no_eof (Enc Utf8) l).
  { intros l Hl H. rewrite Forall_forall in Hl. apply Hl in H. discriminate. }
  split; [|split; [|split; [reflexivity|split; [|vm_compute; reflexivity]]]].
  - split; [discriminate|]. intros l [<-|[]]. repeat split. apply Hne. repeat constructor.
  - apply Hne. repeat constructor.
  - exists [0x61; 0x61]. split; [now left|]. now exists [0x61].
Qed.
Print Assumptions C26_suffix_refuted.

(** ** C27 *)

(** [until] ends behind the first place where the condition matches, for every condition;
    without one it fails at the end of the input, and [or_eof] takes all the input. *)
Theorem C27_until : forall E cond rest,
  no_eof E rest -> bounded cond ->
  (forall e, until_try E cond rest = (true, e) <->
     exists k n, first_match cond rest k n /\ e = (k + n)%nat) /\
  (forall e, until_try E cond rest = (false, e) <-> never_matches cond rest /\ e = length rest) /\
  (forall e, until_eof_try E cond rest = e <->
     (exists k n, first_match cond rest k n /\ e = (k + n)%nat) \/
     (never_matches cond rest /\ e = length rest)) /\
  (until_eof_try E cond rest <= length rest)%nat.
Proof. exact until_exact. Qed.
Print Assumptions C27_until.

(** A literal is such a condition. *)
Theorem C27_literal_condition : forall E cs, no_eof E cs -> bounded (lit_token E cs).
Proof.
  intros E cs He rest n. unfold lit_token. rewrite (LitProofs.lit_try_raw E rest cs 0 He). cbn [skipn].
  destruct (Nat.eqb_spec (common cs rest) (length cs)) as [H|H]; [|discriminate]. intros [= <-].
  clear. revert rest. induction cs as [|c cs IH]; intros [|x r]; cbn; try lia.
  destruct (c =? x); [|lia]. specialize (IH r). lia.
Qed.
Print Assumptions C27_literal_condition.

Example C27_example :
  let close := lit_token (Enc Utf8) [0x2A; 0x2F] in
  until_try (Enc Utf8) close [0x61; 0x2A; 0x2A; 0x2F; 0x62; 0x2A; 0x2F] = (true, 4%nat) /\
  until_try (Enc Utf8) close [0x61; 0x2A; 0x62] = (false, 3%nat) /\
  until_eof_try (Enc Utf8) close [0x61; 0x2A; 0x62] = 3%nat /\
  until_eof_try (Enc Utf8) close [0x61; 0x2A; 0x2F; 0x62] = 3%nat.
Proof. vm_compute. auto. Qed.

(** ** C28 *)

(** What delimited does is given by a division of the input from the opening delimiter on into
    characters of the class, escape sequences and foreign characters, none of which begins
    where the closing delimiter matches.  It ends at a closing delimiter, or with an error
    where the content cannot go on.  The sink and the error callback see these items in order
    and without gaps: put together, their texts are the input up to the end. *)
Theorem C28_delimited : forall E inp e close limit escs skip,
  text_units E inp -> sane e -> consuming escs ->
  skips_ordinary E inp e close limit escs skip ->
  forall start, (start <= length inp)%nat ->
  exists ps q,
    content E inp e close limit escs start ps q /\ (start <= q <= length inp)%nat /\
    outcome inp close limit start start ps q
      (delimited E inp (build e) close limit escs skip start) /\
    tiles start (extents (reported start ps q)) q /\
    concat (map (text_of inp) (extents (reported start ps q))) = firstn (q - start) (skipn start inp) /\
    forall pc, In pc ps -> close (skipn (p_begin pc) inp) = None.
Proof.
  intros E inp e close limit escs skip Hu Hs He Hk start Hst.
  destruct (delimited_spec E inp e close limit escs skip Hu Hs He Hk start Hst) as (ps & q & Hc & Hq & Ho).
  exists ps, q. split; [exact Hc|]. split; [exact Hq|]. split; [exact Ho|].
  assert (Ht : tiles start (extents (reported start ps q)) q).
  { eapply content_tiles; try eassumption; lia. }
  split; [exact Ht|]. split; [now apply tiles_text|]. intros pc. eapply content_open; eassumption.
Qed.
Print Assumptions C28_delimited.

(** The simplest use, on its own: without escapes and limit, on text of the class, the result
    is the text up to the first closing delimiter as one lexeme, or an error at the end of the
    input if there is none. *)
Theorem C28_first_closing : forall E inp e close skip start,
  text_units E inp -> sane e -> skips_ordinary E inp e close None [] skip ->
  unit_class E e inp -> (start <= length inp)%nat -> bounded close ->
  (forall q n, first_match close (skipn start inp) q n ->
     delimited E inp (build e) close None [] skip start =
       DClosed (if (0 <? q)%nat then [DChars start (start + q)] else []) (start + q) (start + q + n)) /\
  (never_matches close (skipn start inp) ->
     delimited E inp (build e) close None [] skip start =
       DFail ((if (start <? length inp)%nat then [DChars start (length inp)] else [])
              ++ [DMissing start (length inp)]) (length inp)).
Proof. exact delimited_plain. Qed.
Print Assumptions C28_first_closing.

(** The word loop of a buffer passes over ordinary characters only, so it has the hypothesis
    above and changes nothing: for an ASCII class, a closing delimiter and escape tokens that
    match only in front of their first unit, and a limit not in the class.  Missing: tokens
    with case folding (then it is wrong, below); limits in the class, against which the
    documentation warns; the other classes do not have a word loop. *)
Theorem C28_word_loop_partial : forall E w contents e close limit escs k close1 firsts,
  width_ok w -> unit_width E w -> text_units E contents -> filter_ok k w ->
  close1 < 2 ^ w -> Forall (fun x => x < 2 ^ w) firsts ->
  begins_with close close1 -> Forall2 (fun x c => begins_with (es_token x) c) escs firsts ->
  (forall x, class_table k x = true -> denotes e x) ->
  (forall l x r, limit = Some l -> class_table k x = true -> l (x :: r) = None) ->
  let skip := del_skip w (leof E) close1 firsts k (buffer_mem (leof E) contents) in
  skips_ordinary E contents e close limit escs skip /\
  (sane e -> consuming escs -> forall start, (start <= length contents)%nat ->
   delimited E contents (build e) close limit escs skip start =
   delimited E contents (build e) close limit escs (fun p => p) start).
Proof.
  intros. split; [now apply word_loop_ordinary|]. intros. now apply word_loop_same.
Qed.
Print Assumptions C28_word_loop_partial.

Theorem C28_literal_tokens : forall E c cs, no_eof E (c :: cs) ->
  begins_with (lit_token E (c :: cs)) c.
Proof. exact lit_token_begins. Qed.
Print Assumptions C28_literal_tokens.

(** A quoted string "ab\n\xc" of ASCII letters; the escape \ takes n, the escape \x is
    not known. *)
Example C28_example :
  let escs := [Escape (lit_token (Enc Utf8) [0x5C])
                 [lit_token (Enc Utf8) [0x72]; lit_token (Enc Utf8) [0x6E]]] in
  let contents := [0x22; 0x61; 0x62; 0x5C; 0x6E; 0x5C; 0x78; 0x21; 0x63; 0x22; 0x64] in
  delimited (Enc Utf8) contents (build (named Calpha)) (lit_token (Enc Utf8) [0x22]) None escs
    (del_skip 8 0xFF 0x22 [0x5C] Calpha (buffer_mem 0xFF contents)) 1 =
  DClosed [DChars 1 3; DEscape 3 4; DBranch 1 4 5; DEscape 5 6; DBadEscape 5 6; DChars 6 7;
           DBadChar 7 8; DChars 8 9] 9 10.
Proof. vm_compute. reflexivity. Qed.

Example C28_hypotheses :
  let escs := [Escape (lit_token (Enc Utf8) [0x5C]) [lit_token (Enc Utf8) [0x6E]]] in
  consuming escs /\
  (forall contents, text_units (Enc Utf8) contents ->
   skips_ordinary (Enc Utf8) contents (named Calpha) (lit_token (Enc Utf8) [0x22]) None escs
     (del_skip 8 0xFF 0x22 [0x5C] Calpha (buffer_mem 0xFF contents))).
Proof.
  assert (Hne : forall c, c <> 0xFF -> no_eof (Enc Utf8) [c]) by (intros c Hc [H|[]]; auto).
  split.
  - split.
    + repeat apply Forall_cons; [|apply Forall_nil]. intros rest n H. cbn [es_token] in H.
      split; [|revert H; apply C27_literal_condition; now apply Hne].
      apply C28_literal_tokens in H as H1; [|now apply Hne]. destruct H1 as (r & ->).
      unfold lit_token in H. rewrite (LitProofs.lit_try_raw (Enc Utf8) (0x5C :: r) [0x5C] 0) in H by now apply Hne.
      cbn in H. injection H as <-. lia.
    + repeat apply Forall_cons; try apply Forall_nil. apply C27_literal_condition. now apply Hne.
  - intros contents Hu. apply (C28_word_loop_partial (Enc Utf8) 8 contents (named Calpha) (lit_token (Enc Utf8) [0x22]) None
      [Escape (lit_token (Enc Utf8) [0x5C]) [lit_token (Enc Utf8) [0x6E]]] Calpha 0x22 [0x5C]).
    + now left.
    + split; reflexivity.
    + exact Hu.
    + now left.
    + reflexivity.
    + repeat constructor.
    + apply C28_literal_tokens. now apply Hne.
    + repeat constructor. apply C28_literal_tokens. now apply Hne.
    + intros x Hx. cbn [named denotes]. destruct (N.ltb_spec x 128) as [_|L]; [exact Hx|].
      rewrite (class_table_ascii _ x L) in Hx. discriminate.
    + discriminate.
Qed.

(** Finding: a closing delimiter with case folding.  Its upper case form is not noticed by
    the word loop: the string goes on to the next closing delimiter. *)
Theorem C28_case_folding_refuted : exists contents close start,
  text_units (Enc Utf8) contents /\
  close = folded_token (Enc Utf8) [0x65; 0x6E; 0x64] /\
  delimited (Enc Utf8) contents (build (named Cprint)) close None [] (fun p => p) start
    = DClosed [DChars 0 8] 8 11 /\
  delimited (Enc Utf8) contents (build (named Cprint)) close None []
    (del_skip 8 0xFF 0x65 [] Cprint (buffer_mem 0xFF contents)) start
    = DFail [DChars 0 16; DMissing 0 16] 16.
Proof.
  exists ([0x61; 0x61; 0x61; 0x61; 0x61; 0x61; 0x61; 0x61; 0x45; 0x4E; 0x44; 0x61; 0x61; 0x61; 0x61; 0x61]),
    (folded_token (Enc Utf8) [0x65; 0x6E; 0x64]), 0%nat.
  split; [|split; [reflexivity|split; vm_compute; reflexivity]].
  split; [repeat constructor; vm_compute; reflexivity|].
  intros H. cbn in H. repeat destruct H as [H|H]; try discriminate; contradiction.
Qed.
Print Assumptions C28_case_folding_refuted.

(** Why a limit must not be in the class: the same text with and without word access. *)
Example C28_limit_in_class :
  let contents := [0x61; 0x62; 0x21; 0x61; 0x61; 0x61; 0x61; 0x61; 0x22; 0x61] in
  let limit := Some (class_try (Enc Utf8) (build (one_of [0x21]))) in
  delimited (Enc Utf8) contents (build (named Cprint)) (lit_token (Enc Utf8) [0x22]) limit []
    (fun p => p) 0 = DFail [DChars 0 2; DMissing 0 2] 2 /\
  delimited (Enc Utf8) contents (build (named Cprint)) (lit_token (Enc Utf8) [0x22]) limit []
    (del_skip 8 0xFF 0x22 [] Cprint (buffer_mem 0xFF contents)) 0 = DClosed [DChars 0 8] 8 9.
Proof. vm_compute. auto. Qed.

(** ** C29 *)

(** [newline] matches exactly LF and CRLF; [eof] exactly at the end, consuming nothing; [eol]
    exactly where one of them does, and as that one. *)
Theorem C29_newline_eof_eol : forall E rest, no_eof E rest ->
  (forall n, newline_try E rest = TYes n <-> newline_at rest n) /\
  (newline_try E rest = TNo <-> (forall n, ~ newline_at rest n)) /\
  (eof_try E rest = true <-> rest = []) /\
  eof_parse E rest = (match rest with [] => LEof | _ :: _ => LError true end) /\
  (eol_try E rest = Some true <-> rest = [] \/ exists n, newline_at rest n) /\
  (eol_try E rest = Some false <-> rest <> [] /\ forall n, ~ newline_at rest n) /\
  (eol_parse E rest = LEof <-> rest = []) /\
  (forall n, eol_parse E rest = LNewline n <-> newline_at rest n) /\
  (eol_parse E rest = LError false <-> rest <> [] /\ forall n, ~ newline_at rest n).
Proof. exact newline_eof_eol. Qed.
Print Assumptions C29_newline_eof_eol.

Example C29_example :
  newline_at [0x0A; 0x0D] 1 /\ newline_at [0x0D; 0x0A] 2 /\
  newline_try (Enc Utf8) [0x0A; 0x0D] = TYes 1%nat /\ newline_try (Enc Utf8) [0x0D; 0x0A] = TYes 2%nat /\
  newline_try (Enc Utf8) [0x0D; 0x0D; 0x0A] = TNo /\ eol_parse (Enc Utf8) [] = LEof /\
  eol_parse (Enc Utf8) [0x0D; 0x61] = LError false.
Proof.
  split; [left; split; [reflexivity|eexists; reflexivity]|].
  split; [right; split; [reflexivity|eexists; reflexivity]|]. vm_compute. auto 10.
Qed.
