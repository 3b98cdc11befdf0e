(** Property theorems C72 and C73: Unicode classes and simple case folding. *)
From Verif Require Import Prelude CodecModel CodecSpec SwarModel LitModel LitSpec ClassModel ClassSpec TextModel TextSpec
  SymModel SymSpec StrModel StrSpec StrProofs StrProps UniTables UniModel UniSpec UniProofs UniCheck UniMain UniFold UniIdent.
Open Scope N_scope.

(** ** C72 *)
(** No lookup leaves the tables: every code point has a category and every class test an answer;
    the code points that a rule asks about are such code points, for every input. *)
Theorem C72_defined :
  (forall c, exists k, has_category c k) /\
  (forall k c, c <= 0x10FFFF -> exists b, unicode_cp k c = Some b) /\
  (forall k c, c <= 0x10FFFF -> exists b, category_pred k c = Some b) /\
  (forall g c, exists b, group_pred g c = Some b) /\
  (forall E rest c n, Forall (fun u => u < lbound E) rest -> reads E rest c n -> c <= 0x10FFFF).
Proof.
  split; [exact category_total|]. split; [exact unicode_defined|]. split; [|split; [|exact reads_valid]].
  - intros k c H. destruct (category_pred_spec k c H) as (b & H1 & _). exists b. exact H1.
  - intros g c. destruct (group_pred_spec g c) as (b & H1 & _). exists b. exact H1.
Qed.
Print Assumptions C72_defined.

(** Every class of [dsl::unicode] matches exactly the code points of its documentation, and
    consumes exactly their encoding. *)
Theorem C72_class : forall E k rest n, E <> Enc Utf16 -> Forall (fun u => u < lbound E) rest ->
  (class_try E (build (unicode k)) rest = Some n <-> exists c, encodes E rest c n /\ documented k c).
Proof. exact unicode_class_text. Qed.
Print Assumptions C72_class.

(** For UTF-16 the code point is the one lexy reads, see C03. *)
Theorem C72_class_read : forall E k rest n, Forall (fun u => u < lbound E) rest ->
  (class_try E (build (unicode k)) rest = Some n <-> exists c, reads E rest c n /\ documented k c).
Proof. exact unicode_class. Qed.
Print Assumptions C72_class_read.

(** [dsl::code_point.general_category<K>()], of a group, [.ascii()], [.bmp()] and
    [.noncharacter()]. *)
Theorem C72_category : forall E rest n, Forall (fun u => u < lbound E) rest ->
  (forall k, class_try E (build (cp_category k)) rest = Some n <->
     exists c, reads E rest c n /\ has_category c k) /\
  (forall g, class_try E (build (cp_group g)) rest = Some n <->
     exists c, reads E rest c n /\ in_group c (group_members g)) /\
  (class_try E (build cp_ascii) rest = Some n <-> exists c, reads E rest c n /\ c <= 0x7F) /\
  (class_try E (build cp_bmp) rest = Some n <-> exists c, reads E rest c n /\ c <= 0xFFFF) /\
  (class_try E (build cp_noncharacter) rest = Some n <->
     exists c, reads E rest c n /\ noncharacter_range c).
Proof. exact unicode_categories. Qed.
Print Assumptions C72_category.

(** The categories that the standard fixes by ranges, and [is_control()], [is_surrogate()],
    [is_private_use()], [is_noncharacter()], agree with the tables. *)
Theorem C72_ranges : forall c, c <= 0x10FFFF ->
  (has_category c Cc <-> control_range c) /\
  (has_category c Cs <-> surrogate_range c) /\
  (has_category c Co <-> private_use_range c) /\
  (has_category c Zl <-> c = 0x2028) /\ (has_category c Zp <-> c = 0x2029) /\
  (noncharacter_range c -> has_category c Cn).
Proof. exact category_ranges. Qed.
Print Assumptions C72_ranges.
Theorem C72_predicates : forall c, c <= 0x10FFFF ->
  (is_control c = true <-> has_category c Cc) /\ (cp_is_surrogate c = true <-> has_category c Cs) /\
  (is_private_use c = true <-> has_category c Co) /\ (is_noncharacter c = true -> has_category c Cn).
Proof.
  intros c Hc. destruct (category_ranges c Hc) as (H1 & H2 & H3 & _ & _ & H4).
  rewrite H1, H2, H3, noncharacter_spec.
  unfold is_control, control_range, cp_is_surrogate, surrogate_range, is_private_use, private_use_range.
  split; [lia|]. split; [lia|]. split; [lia|exact H4].
Qed.
Print Assumptions C72_predicates.

(** The seven groups partition the categories; [LC] is part of [L]. *)
Theorem C72_groups : forall k,
  (exists g, In g [GL; GM; GN; GP; GS; GZ; GC] /\ group_eqb g k = true /\
     forall g', In g' [GL; GM; GN; GP; GS; GZ; GC] -> group_eqb g' k = true -> g' = g) /\
  (group_eqb GLC k = true -> group_eqb GL k = true) /\
  (forall g, group_neqb g k = negb (group_eqb g k)).
Proof. exact groups_partition. Qed.
Print Assumptions C72_groups.

(** On ASCII characters every class agrees with its ASCII counterpart (C66), hence is a superset
    of it. *)
Theorem C72_ascii : forall k c, c < 128 -> (documented k c <-> class_table (unicode_ascii k) c = true).
Proof. intros k c H. symmetry. exact (proj1 (ascii_agrees k c H)). Qed.
Print Assumptions C72_ascii.

(** How the classes relate, for every code point. *)
Theorem C72_relations : forall c, c <= 0x10FFFF ->
  (documented Ulower c -> documented Ualpha c /\ ~ documented Uupper c) /\
  (documented Uupper c -> documented Ualpha c) /\
  (has_category c Lu -> documented Uupper c) /\ (has_category c Ll -> documented Ulower c) /\
  (in_group c [Lu; Ll; Lt; Lm; Lo] -> documented Ualpha c) /\
  (documented Ualpha c -> ~ documented Udigit c) /\
  (documented Ualnum c -> documented Uword c) /\
  (documented Uspace c <-> documented Ublank c \/ documented Unewline c \/ documented Uother_space c) /\
  (documented Uspace c -> ~ documented Uword c /\ ~ documented Uxid_continue c) /\
  (documented Uchar c <->
     documented Ugraph c \/ documented Uspace c \/ documented Ucontrol c \/ has_category c Cs) /\
  (documented Uprint c -> documented Uchar c) /\
  (documented Uxid_start c -> documented Uxid_start_underscore c) /\
  (documented Uxid_start_underscore c -> documented Uxid_continue c) /\
  (documented Uxid_start c -> ~ documented Udigit c) /\
  (documented Udigit c -> documented Uxid_continue c).
Proof. exact unicode_relations. Qed.
Print Assumptions C72_relations.

(** [-unicode::control] is the complement, as with any other class (C22). *)
Theorem C72_minus_control : forall E rest n, Forall (fun u => u < lbound E) rest ->
  (class_try E (build minus_control) rest = Some n <->
     (exists c, reads E rest c n) /\ class_try E (build (unicode Ucontrol)) rest = None) /\
  minus_nctrl = unicode Ucontrol.
Proof.
  intros E rest n HF. split; [|reflexivity]. unfold minus_control. rewrite unicode_class by exact HF.
  assert (Hu : forall c m c' m', reads E rest c m -> reads E rest c' m' -> c = c').
  { intros c m c' m' H H'. destruct E as [|e]; cbn [reads] in H, H'; [|congruence].
    destruct H as (_ & r & Hr & _), H' as (_ & r' & Hr' & _). congruence. }
  split.
  - intros (c & Hr & Hd). split; [exists c; exact Hr|].
    destruct (class_try E (build (unicode Ucontrol)) rest) as [m|] eqn:Em; [|reflexivity].
    apply unicode_class in Em; [|exact HF]. destruct Em as (c' & Hr' & Hd').
    rewrite (Hu _ _ _ _ Hr Hr') in Hd. contradiction.
  - intros ((c & Hr) & Hn). exists c. split; [exact Hr|]. intros Hd.
    assert (E' : class_try E (build (unicode Ucontrol)) rest = Some n) by (apply unicode_class; eauto).
    congruence.
Qed.
Print Assumptions C72_minus_control.

(** "ß" is lower case, " " a blank, U+FFFF not a character, U+2028 a newline and no
    graph; the emoji U+1F600 prints. *)
Example C72_example :
  class_try (Enc Utf8) (build (unicode Ulower)) [0xC3; 0x9F; 0x41] = Some 2%nat /\
  class_try (Enc Utf8) (build (unicode Uupper)) [0xC3; 0x9F; 0x41] = None /\
  class_try (Enc Utf16) (build (unicode Ublank)) [0x2003] = Some 1%nat /\
  class_try (Enc Utf32) (build (unicode Uchar)) [0xFFFF] = None /\
  class_try (Enc Utf8) (build (unicode Unewline)) [0xE2; 0x80; 0xA8] = Some 3%nat /\
  class_try (Enc Utf8) (build (unicode Ugraph)) [0xE2; 0x80; 0xA8] = None /\
  class_try (Enc Utf8) (build (unicode Uprint)) [0xF0; 0x9F; 0x98; 0x80] = Some 4%nat /\
  class_try (Enc Utf8) (build (cp_category Sc)) [0xE2; 0x82; 0xAC] = Some 3%nat /\
  class_try (Enc Utf8) (build (cp_group GS)) [0xE2; 0x82; 0xAC] = Some 3%nat /\
  class_try (Enc Utf8) (build minus_control) [0xC2; 0x85] = None /\
  documented Uxid_start 0x3B1 /\ documented Uspace 0xA0.
Proof. repeat (split; [vm_compute; reflexivity|]). vm_compute. reflexivity. Qed.

(** ** C73 *)
(** [simple_case_fold] of any 32 bit value: defined, idempotent, a code point exactly for code
    points and a scalar value exactly for scalar values, in the same plane; ASCII letters are
    folded as [ascii::case_folding] does; the only other code points that become ASCII are U+017F
    (to "s") and U+212A (to "k"); only alphabetic code points change. *)
Theorem C73_fold : forall c, exists d, folds c d /\ folds d d /\
  (c <= 0x10FFFF <-> d <= 0x10FFFF) /\ (scalar c <-> scalar d) /\
  (c < 128 -> d = lower c) /\
  (d < 128 -> c = d \/ d = lower c \/ (c = 0x17F /\ d = 0x73) \/ (c = 0x212A /\ d = 0x6B)) /\
  (d <> c -> documented Ualpha c /\ documented Ualpha d) /\
  d / 0x10000 = c / 0x10000.
Proof. exact fold_facts. Qed.
Print Assumptions C73_fold.

(** Folding keeps a code point in the classes an identifier is made of. *)
Theorem C73_classes : forall c d, folds c d ->
  (documented Ualpha d <-> documented Ualpha c) /\
  (documented Uword d <-> documented Uword c) /\
  (documented Uxid_continue d <-> documented Uxid_continue c) /\
  (documented Uxid_start c -> documented Uxid_start d).
Proof. exact fold_classes. Qed.
Print Assumptions C73_classes.

(** A literal with [unicode::simple_case_folding], UTF-8 and UTF-16: it matches exactly the texts
    of which it is the folded form and consumes exactly those; in particular a literal that is
    not in folded form never matches. *)
Theorem C73_literal : forall e inp lcps cps pos,
  e = Utf8 \/ e = Utf16 ->
  no_eof (Enc e) inp -> skipn pos inp = text e cps ->
  Forall (readable e) lcps -> Forall (readable e) cps ->
  (fst (cfl_unicode db_fold e inp (lcp_string e lcps) pos) = true <->
     exists a b, cps = a ++ b /\ map db_fold a = lcps) /\
  (fst (cfl_unicode db_fold e inp (lcp_string e lcps) pos) = true -> Forall (fun c => folds c c) lcps) /\
  (forall a b, cps = a ++ b -> map db_fold a = lcps ->
     snd (cfl_unicode db_fold e inp (lcp_string e lcps) pos) = (pos + length (text e a))%nat).
Proof. exact literal_matches_db. Qed.
Print Assumptions C73_literal.

(** Literal sets and symbol tables on UTF-32: the tables satisfy what C25 and C55 require. *)
Theorem C73_utf32 :
  (forall ls inp pos, set_try db_fold UnicodeFold (Enc Utf32) ls inp pos
     = set_try db_fold NoFold (Enc Utf32) ls (map db_fold inp) pos) /\
  foldable db_fold (Enc Utf32) UnicodeFold.
Proof.
  split; [exact utf32_set_db|]. split; [reflexivity|]. intros c Hc.
  split; [now apply db_fold_valid|apply db_fold_idem].
Qed.
Print Assumptions C73_utf32.

(** [as_string<...>.case_folding(unicode::simple_case_folding)]: the text of the folded code
    points, for every text that lexy reads back (C03). *)
Theorem C73_string : forall e ps s cps,
  e <> Utf32 -> string_sink db_fold NoFold e ps = Some s -> text_of e cps s -> Forall (reads_back e) cps ->
  (exists s', string_sink db_fold UnicodeFold e ps = Some s' /\ text_of e (map db_fold cps) s').
Proof.
  intros e ps s cps He Hs Ht Hc. eapply C59_unicode_case_folding_partial; try eassumption.
  revert Hc. apply Forall_impl. intros c ((H1 & H2) & H3). split; [split|].
  - now apply db_fold_scalar.
  - intros E. specialize (H2 E). rewrite db_fold_ascii by lia. unfold lower.
    destruct ((65 <=? c) && (c <=? 90)) eqn:El; lia.
  - intros E. specialize (H3 E). rewrite db_fold_plane. destruct H3 as [H3|H3]; [left|right; exact H3].
    assert (c / 0x10000 = 0) by (apply N.div_small; exact H3).
    pose proof (db_fold_plane c). pose proof (N.div_mod (db_fold c) 0x10000 ltac:(lia)).
    pose proof (N.mod_lt (db_fold c) 0x10000 ltac:(lia)). lia.
Qed.
Print Assumptions C73_string.
Theorem C73_string_utf32 : forall ps s,
  string_sink db_fold NoFold Utf32 ps = Some s -> ~ In (eof Utf32) s ->
  string_sink db_fold UnicodeFold Utf32 ps = Some (map (fun c => if c <=? 0x10FFFF then db_fold c else c) s).
Proof.
  intros ps s Hs Hn. apply C59_unicode_case_folding_utf32; try assumption. exact db_fold_valid.
Qed.
Print Assumptions C73_string_utf32.

(** "STRASSE" with a long s and a Kelvin sign; final sigma; Cherokee letters fold to upper case. *)
Example C73_example :
  map db_fold [0x53; 0x54; 0x52; 0x41; 0x17F; 0x73; 0x45] = [0x73; 0x74; 0x72; 0x61; 0x73; 0x73; 0x65] /\
  db_fold 0x212A = 0x6B /\ db_fold 0x3C2 = 0x3C3 /\ db_fold 0x3A3 = 0x3C3 /\ db_fold 0x13F8 = 0x13F0 /\
  db_fold 0x10400 = 0x10428 /\ db_fold 0x110000 = 0x110000 /\
  Forall (readable Utf8) [0x212A; 0x3C2] /\ no_eof (Enc Utf8) (text Utf8 [0x212A; 0x3C2]) /\
  cfl_unicode db_fold Utf8 (text Utf8 [0x212A; 0x3C2]) (lcp_string Utf8 [0x6B; 0x3C3]) 0 = (true, 5%nat) /\
  cfl_unicode db_fold Utf8 (text Utf8 [0x4B]) (lcp_string Utf8 [0x4B]) 0 = (false, 0%nat).
Proof.
  do 7 (split; [vm_compute; reflexivity|]). split; [repeat constructor; cbn; lia|].
  split; [vm_compute; intuition discriminate|]. split; vm_compute; reflexivity.
Qed.

(** ** C26 with Unicode case folding *)
(** On UTF-32 an identifier is reserved by [reserve(unicode::simple_case_folding(...))] etc. if
    its folded form is, for the words as written ([reserve_suffix]: as in C26). *)
Theorem C26_unicode_utf32_partial : forall k words lexeme,
  plain_words (Enc Utf32) (Reserve k NoFold words) -> no_eof (Enc Utf32) lexeme ->
  exists b, is_reserved db_fold (Enc Utf32) (Reserve k UnicodeFold words) lexeme = Some b /\
    (b = true -> reserves (Reserve k NoFold words) (map db_fold lexeme)) /\
    (k <> Suffix \/ ~ overlapped (Reserve k NoFold words) (map db_fold lexeme) ->
     reserves (Reserve k NoFold words) (map db_fold lexeme) -> b = true).
Proof. exact reserved_unicode. Qed.
Print Assumptions C26_unicode_utf32_partial.

(** On UTF-8 the reserved word itself is not recognized, and words are reserved that are not
    (both from the matcher of C25_unicode_set_refuted). *)
Theorem C26_unicode_refuted :
  is_reserved db_fold (Enc Utf8) (Reserve Whole UnicodeFold [Literal [0x61; 0x62] 0 None]) [0x61; 0x62] = Some false /\
  is_reserved db_fold (Enc Utf8) (Reserve Prefix UnicodeFold [Literal [0x61; 0x62; 0x62] 0 None]) [0x61; 0x62] = Some true.
Proof. split; vm_compute; reflexivity. Qed.
Print Assumptions C26_unicode_refuted.

(** The word "straße" on the identifier "STRAßE", given as code points. *)
Example C26_unicode_example :
  is_reserved db_fold (Enc Utf32) (Reserve Whole UnicodeFold [Literal [0x73; 0x74; 0x72; 0x61; 0xDF; 0x65] 0 None])
    [0x53; 0x54; 0x52; 0x41; 0x1E9E; 0x45] = Some true /\
  is_reserved db_fold (Enc Utf32) (Reserve Suffix UnicodeFold [Literal [0xDF; 0x65] 0 None])
    [0x53; 0x54; 0x52; 0x41; 0x1E9E; 0x45] = Some true /\
  plain_words (Enc Utf32) (Reserve Whole NoFold [Literal [0x73; 0x74; 0x72; 0x61; 0xDF; 0x65] 0 None]).
Proof.
  split; [vm_compute; reflexivity|]. split; [vm_compute; reflexivity|].
  split; [discriminate|]. intros l [<-|[]]. repeat split.
  intros H. cbn in H. repeat destruct H as [H|H]; try discriminate; contradiction.
Qed.
