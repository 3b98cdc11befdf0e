(** Property theorems C17-C19 and C68: locations, anchors, annotations, order. *)
From Verif Require Import Prelude CodecModel CodecSpec SwarSpec LitModel LitSpec ClassModel ClassSpec TextModel TextSpec
  LocModel LocSpec LocProofs LocText LocWf LocAnn.
Open Scope N_scope.

(** ** C17 *)

(** For any text and any position, counting code units or code points: the line is one plus the
    number of newlines before the position; the line begins behind the last line feed before the
    position; the column is one plus the number of columns from there; and the reported
    position is the one asked for, or the start of the code point or newline it is inside of.
    Numbers are of type unsigned. *)
Theorem C17_text : forall u E inp pos, text_units E inp -> (pos <= length inp)%nat ->
  exists l, get_input_location E (policy u) inp pos input_anchor = Loc l /\
    lo_line_nr l = as_unsigned (1 + newlines (firstn pos inp)) /\
    line_begins inp pos (lo_line_begin l) /\
    (exists k, columns u E (skipn (lo_line_begin l) inp) (lo_column_begin l - lo_line_begin l) k /\
       lo_column_nr l = as_unsigned (1 + k)) /\
    (lo_line_begin l <= lo_column_begin l <= pos)%nat /\
    rounds_down u E inp pos (lo_column_begin l).
Proof. intros u E inp pos H. exact (text_location u E inp H pos). Qed.
Print Assumptions C17_text.

(** Counting code units: every position that is not between CR and LF is its own location, and
    the column is one plus its distance from the start of the line. *)
Theorem C17_code_units : forall E inp pos, text_units E inp -> (pos <= length inp)%nat ->
  ((0 < pos)%nat -> ~ newline_at (skipn (pos - 1) inp) 2) ->
  exists b, line_begins inp pos b /\
    get_input_location E CUnits inp pos input_anchor =
    Loc (Location b (as_unsigned (1 + newlines (firstn pos inp))) pos (as_unsigned (1 + (pos - b)))).
Proof. exact units_location. Qed.
Print Assumptions C17_code_units.

(** A position between CR and LF has the location of the CR. *)
Theorem C17_newline : forall u E inp pos l, text_units E inp -> (pos < length inp)%nat -> (0 < pos)%nat ->
  newline_at (skipn (pos - 1) inp) 2 -> get_input_location E (policy u) inp pos input_anchor = Loc l ->
  S (lo_column_begin l) = pos.
Proof. exact inside_newline_location. Qed.
Print Assumptions C17_newline.

(** Counting code points in well-formed text: the location of the position behind the code
    points [pre] has as line one plus the newlines in [pre], and as column one plus the number of
    code points behind the last of them. *)
Theorem C17_code_points : forall e pre post, valid e (pre ++ post) ->
  text_units (Enc e) (encoded e (pre ++ post)) -> ~ inside_newline pre post ->
  exists b, get_input_location (Enc e) CPoints (encoded e (pre ++ post)) (length (encoded e pre)) input_anchor =
    Loc (Location b (as_unsigned (1 + newlines pre)) (length (encoded e pre)) (as_unsigned (1 + length (last_line pre)))).
Proof. intros e pre post Hv Hi Hn. exact (wf_location e (pre ++ post) Hv Hi pre post eq_refl Hn). Qed.
Print Assumptions C17_code_points.

(** Counting bytes in lines of [w]: line and column are quotient and remainder, plus one. *)
Theorem C17_bytes : forall E inp w pos, text_units E inp -> (0 < w)%nat -> (pos <= length inp)%nat ->
  get_input_location E (CBytes w) inp pos input_anchor =
  Loc (Location (pos / w * w)%nat (as_unsigned (1 + pos / w)) pos (as_unsigned (1 + pos mod w))).
Proof. intros E inp w pos H Hw. exact (byte_location E inp w H Hw pos). Qed.
Print Assumptions C17_bytes.

(** "ä\r\né2": the positions at 'é' (behind four units), inside it, and at '2'. *)
Definition sample17 : list N := [0xC3; 0xA4; 0x0D; 0x0A; 0xC3; 0xA9; 0x32].
Example C17_example :
  text_units (Enc Utf8) sample17 /\ sample17 = encoded Utf8 [0xE4; 0x0D; 0x0A; 0xE9; 0x32] /\
  get_input_location (Enc Utf8) CPoints sample17 2 input_anchor = Loc (Location 0 1 2 2) /\
  get_input_location (Enc Utf8) CPoints sample17 3 input_anchor = Loc (Location 0 1 2 2) /\
  get_input_location (Enc Utf8) CPoints sample17 4 input_anchor = Loc (Location 4 2 4 1) /\
  get_input_location (Enc Utf8) CPoints sample17 5 input_anchor = Loc (Location 4 2 4 1) /\
  get_input_location (Enc Utf8) CPoints sample17 6 input_anchor = Loc (Location 4 2 6 2) /\
  get_input_location (Enc Utf8) CUnits sample17 6 input_anchor = Loc (Location 4 2 6 3) /\
  get_input_location (Enc Utf8) (CBytes 3) sample17 5 input_anchor = Loc (Location 3 2 5 3) /\
  newline_at (skipn (3 - 1) sample17) 2.
Proof.
  split; [split; [repeat constructor|intros H; cbn in H; decompose [or] H; try discriminate; contradiction]|].
  vm_compute. repeat (split; [reflexivity|]). right. eauto.
Qed.
Example C17_hypotheses :
  valid Utf8 ([0xE4; 0x0D; 0x0A; 0xE9] ++ [0x32]) /\ ~ inside_newline [0xE4; 0x0D; 0x0A; 0xE9] [0x32] /\
  newlines [0xE4; 0x0D; 0x0A; 0xE9] = 1%nat /\ last_line [0xE4; 0x0D; 0x0A; 0xE9] = [0xE9].
Proof.
  split; [repeat constructor; unfold scalar; lia|]. split; [intros (_ & l & H); discriminate|]. now vm_compute.
Qed.

(** ** C18 *)

(** For every position, every anchor taken from the location of some other position, and every
    counting policy: if the anchored line does not begin behind the position, the location found
    from the anchor is the location found from the beginning of the input. *)
Theorem C18_anchor : forall E c inp p q l, text_units E inp -> wide c ->
  (p <= length inp)%nat -> (q <= length inp)%nat ->
  get_input_location E c inp p input_anchor = Loc l -> (lo_line_begin l <= q)%nat ->
  get_input_location E c inp q (anchor_of l) = get_input_location E c inp q input_anchor.
Proof. intros E c inp p q l H. exact (from_anchor E c inp H p q l). Qed.
Print Assumptions C18_anchor.

(** From an anchor whose line begins behind the position, no location is found, and neither for
    a position behind the end of the input: an assertion fails. *)
Theorem C18_behind : forall E c inp q a, text_units E inp -> (an_line_begin a <= length inp)%nat ->
  (q < an_line_begin a)%nat \/ (length inp < q)%nat -> get_input_location E c inp q a = LocAssert.
Proof. intros E c inp q a H Ha [Hq|Hq]; [apply before_anchor|apply (behind_end E c inp H)]; lia. Qed.
Print Assumptions C18_behind.

Example C18_example :
  get_input_location (Enc Utf8) CPoints sample17 5 input_anchor = Loc (Location 4 2 4 1) /\
  anchor_of (Location 4 2 4 1) = Anchor 4 2 /\
  get_input_location (Enc Utf8) CPoints sample17 7 (Anchor 4 2) = Loc (Location 4 2 7 3) /\
  get_input_location (Enc Utf8) CPoints sample17 2 (Anchor 4 2) = LocAssert /\
  get_input_location (Enc Utf8) CPoints sample17 8 (Anchor 4 2) = LocAssert /\
  wide CPoints /\ wide (CBytes 16).
Proof. do 5 (split; [reflexivity|]). split; [exact I|]. cbn. lia. Qed.

(** ** C19 *)

(** For any text, any location found in it and any end not before it (even one behind the end of
    the input): with [lb, le) the line of the location and [le, ne) its newline, the three
    pieces are consecutive, start at the begin of the line and end at [le], or at [ne] if and
    only if the range reaches into the newline, which is flagged.  The end is clipped to the line
    (flagged if anything is cut off) and then moved to the end of a code point (flagged if that
    changes it). *)
Theorem C19_text : forall u E inp pos l end_, text_units E inp -> (pos <= length inp)%nat ->
  get_input_location E (policy u) inp pos input_anchor = Loc l -> (lo_column_begin l <= end_)%nat ->
  exists le ne w a, annotation_to E (policy u) inp l end_ = Some a /\
    line_is inp (lo_line_begin l) le ne /\ (lo_column_begin l <= le)%nat /\
    wanted (lo_column_begin l) end_ le ne w /\
    annotates E inp (lo_line_begin l) le ne (lo_column_begin l) w a /\
    (an_truncated a = true <-> (ne < end_)%nat).
Proof. intros u E inp pos l end_ H. exact (text_annotation u E inp H pos l end_). Qed.
Print Assumptions C19_text.

(** The overload with a size is the overload with an end. *)
Theorem C19_size : forall u E inp pos l size, text_units E inp -> (pos <= length inp)%nat ->
  get_input_location E (policy u) inp pos input_anchor = Loc l ->
  annotation_of E (policy u) inp l size = annotation_to E (policy u) inp l (lo_column_begin l + size).
Proof. intros u E inp pos l size H. exact (text_annotation_size u E inp H pos l size). Qed.
Print Assumptions C19_size.

(** Counting code points in well-formed text, the annotated piece begins and ends between two
    code points, whatever position was asked for and wherever the range ends. *)
Theorem C19_code_points : forall e cps pos l end_, valid e cps -> text_units (Enc e) (encoded e cps) ->
  (pos <= length (encoded e cps))%nat ->
  get_input_location (Enc e) CPoints (encoded e cps) pos input_anchor = Loc l -> (lo_column_begin l <= end_)%nat ->
  exists a b f, annotation_to (Enc e) CPoints (encoded e cps) l end_ = Some a /\ an_annotated a = (b, f) /\
    (exists pre post, cps = pre ++ post /\ b = length (encoded e pre)) /\
    (exists pre post, cps = pre ++ post /\ f = length (encoded e pre)).
Proof. exact annotation_boundaries. Qed.
Print Assumptions C19_code_points.

(** Counting bytes.  Missing: that the pieces cover the line of [w] bytes; they leave out its
    last byte (as if it were a newline) unless the range reaches it. *)
Theorem C19_bytes_partial : forall E inp w pos l end_, text_units E inp -> (0 < w)%nat -> (pos <= length inp)%nat ->
  get_input_location E (CBytes w) inp pos input_anchor = Loc l -> (lo_column_begin l <= end_)%nat ->
  exists le ne x a, annotation_to E (CBytes w) inp l end_ = Some a /\
    byte_line inp w (lo_line_begin l) ne /\ (le = ne \/ S le = ne)%nat /\ (lo_column_begin l <= le)%nat /\
    wanted (lo_column_begin l) end_ le ne x /\
    annotates E inp (lo_line_begin l) le ne (lo_column_begin l) x a /\
    (an_truncated a = true <-> (ne < end_)%nat).
Proof. exact byte_annotation. Qed.
Print Assumptions C19_bytes_partial.

(** With bytes the pieces do not cover the line: of sixteen bytes 0..15 without any newline, in
    lines of sixteen, byte 15 is in no piece of the annotation of the first byte; and annotating
    the last byte flags a newline. *)
Theorem C19_bytes_refuted : exists inp l m, text_units Default inp /\ byte_line inp 16 0 16 /\
  get_input_location Default (CBytes 16) inp 0 input_anchor = Loc l /\
  (exists a, annotation_to Default (CBytes 16) inp l 1 = Some a /\
     an_before a = (0, 0)%nat /\ an_annotated a = (0, 1)%nat /\ an_after a = (1, 15)%nat /\ an_newline a = false) /\
  get_input_location Default (CBytes 16) inp 15 input_anchor = Loc m /\
  (exists a, annotation_to Default (CBytes 16) inp m 16 = Some a /\
     an_annotated a = (15, 16)%nat /\ an_newline a = true).
Proof.
  exists (map N.of_nat (seq 0x40 16)), (Location 0 1 0 1), (Location 0 1 15 16).
  split; [split; [vm_compute; repeat constructor|vm_compute; intros H; decompose [or] H; try discriminate; contradiction]|].
  split; [split; [exists 0%nat; reflexivity|]; cbn; lia|]. split; [reflexivity|].
  split; [eexists; split; [reflexivity|vm_compute; auto]|]. split; [reflexivity|].
  eexists; split; [reflexivity|vm_compute; auto].
Qed.
Print Assumptions C19_bytes_refuted.

Example C19_example :
  annotation_of (Enc Utf8) CPoints sample17 (Location 4 2 4 1) 1 =
    Some (Annotation (4, 4)%nat (4, 6)%nat (6, 7)%nat false false true) /\
  annotation_of (Enc Utf8) CPoints sample17 (Location 0 1 0 1) 3 =
    Some (Annotation (0, 0)%nat (0, 4)%nat (4, 4)%nat false true false) /\
  annotation_to (Enc Utf8) CPoints sample17 (Location 0 1 0 1) 6 =
    Some (Annotation (0, 0)%nat (0, 4)%nat (4, 4)%nat true true false) /\
  line_is sample17 0 2 4.
Proof.
  split; [reflexivity|]. split; [reflexivity|]. split; [reflexivity|].
  split; [lia|]. split; [cbn; lia|]. split.
  - intros i n Hi. destruct i as [|[|i]]; [| |lia]; intros [(_ & r & H)|(_ & r & H)]; discriminate.
  - left. right. split; [reflexivity|]. eexists. reflexivity.
Qed.

(** An empty range in front of a code point of two units is reported as rounded, though the end
    it was given is between two code points (documentation: the flag says that the end was inside
    a code point). *)
Example C19_empty_range_rounded :
  annotation_to (Enc Utf8) CPoints sample17 (Location 4 2 4 1) 4 =
    Some (Annotation (4, 4)%nat (4, 6)%nat (6, 7)%nat false false true).
Proof. reflexivity. Qed.

(** ** C68 *)

(** The comparison operators order locations of the same input as the positions they stand for
    (inputs of less than 2^32 - 1 units), and a later position never has an earlier location. *)
Theorem C68_order : forall E c inp p q l m, text_units E inp ->
  (p <= length inp)%nat -> (q <= length inp)%nat -> N.of_nat (length inp) + 1 < 2 ^ 32 ->
  get_input_location E c inp p input_anchor = Loc l ->
  get_input_location E c inp q input_anchor = Loc m ->
  loc_lt l m = (lo_column_begin l <? lo_column_begin m)%nat /\
  loc_eq l m = (lo_column_begin l =? lo_column_begin m)%nat /\
  loc_le l m = (lo_column_begin l <=? lo_column_begin m)%nat /\
  loc_gt l m = (lo_column_begin m <? lo_column_begin l)%nat /\
  loc_ge l m = (lo_column_begin m <=? lo_column_begin l)%nat /\
  ((p <= q)%nat -> (lo_column_begin l <= lo_column_begin m)%nat).
Proof. intros E c inp p q l m H. exact (locations_ordered E c inp H p q l m). Qed.
Print Assumptions C68_order.

Example C68_example :
  loc_lt (Location 0 1 2 2) (Location 4 2 4 1) = true /\ loc_lt (Location 4 2 4 1) (Location 4 2 6 2) = true /\
  loc_eq (Location 4 2 4 1) (Location 4 2 4 1) = true /\ loc_ge (Location 0 1 2 2) (Location 4 2 4 1) = false.
Proof. now vm_compute. Qed.
