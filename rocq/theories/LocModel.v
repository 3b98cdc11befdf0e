(** Model of input locations and line annotations.
    Source: include/lexy/input_location.hpp, _detail/iterator.hpp.

    The input is the list [inp] of its units; an iterator or marker is an offset into it.
    Simplified: iterators are random access (for others [min_range_end] steps to the same
    result). *)
From Verif Require Import Prelude CodecModel LitModel ClassModel TextModel.
Open Scope N_scope.

(** [unsigned], the type of line and column numbers. *)
Definition unsigned_inc (x : N) : N := (x + 1) mod 2 ^ 32.

(** input_location.hpp:38-115: the counting strategies; the byte strategy has an index as
    its state (l.110-111), the others none. *)
Inductive counting := CUnits | CPoints | CBytes (line_width : nat).

(** The dsl token rules used: [try_match_token(dsl::newline, reader)] and
    [try_match_token(dsl::code_point, reader)], a character class (dsl/code_point.hpp:14-49). *)
Definition match_newline (E : lenc) (rest : list N) : option nat :=
  match newline_try E rest with TYes n => Some n | _ => None end.
Definition code_point_class : cexpr := EClass (fun _ => true) (Some (fun _ => true)).
Definition match_code_point (E : lenc) (rest : list N) : option nat :=
  class_try E (build code_point_class) rest.

(** input_location.hpp:41-46, 61-66, 82-104 [try_match_newline]: the units consumed and the
    new index. *)
Definition try_match_newline (E : lenc) (c : counting) (idx : nat) (rest : list N)
  : option (nat * nat) :=
  match c with
  | CUnits | CPoints => match match_newline E rest with Some n => Some (n, idx) | None => None end
  | CBytes w =>
    if (idx =? w - 1)%nat then
      Some (if lpeek E rest =? leof E then 0%nat else 1%nat, 0%nat)
    else None
  end.

(** input_location.hpp:48-53, 68-74, 102-108 [match_column]. *)
Definition match_column (E : lenc) (c : counting) (idx : nat) (rest : list N) : nat * nat :=
  match c with
  | CUnits => (1%nat, idx)
  | CPoints => (match match_code_point E rest with Some n => n | None => 1%nat end, idx)
  | CBytes _ => (1%nat, S idx)
  end.

(** input_location.hpp:14-32 [input_location_anchor]. *)
Record anchor := Anchor { an_line_begin : nat; an_line_nr : N }.
(** input_location.hpp:17-20: the anchor of the beginning. *)
Definition input_anchor : anchor := Anchor 0 1.

(** input_location.hpp:136-207 [input_location]. *)
Record location := Location {
  lo_line_begin : nat; lo_line_nr : N; lo_column_begin : nat; lo_column_nr : N }.
(** input_location.hpp:143-146: the location of the beginning. *)
Definition input_location : location := Location 0 1 0 1.
(** input_location.hpp:149-152 [anchor()]. *)
Definition anchor_of (l : location) : anchor := Anchor (lo_line_begin l) (lo_line_nr l).

(** input_location.hpp:169-195: the comparisons. *)
Definition loc_eq (a b : location) : bool :=
  (lo_line_nr a =? lo_line_nr b) && (lo_column_nr a =? lo_column_nr b).
Definition loc_lt (a b : location) : bool :=
  if negb (lo_line_nr a =? lo_line_nr b) then lo_line_nr a <? lo_line_nr b
  else lo_column_nr a <? lo_column_nr b.
Definition loc_le (a b : location) : bool := negb (loc_lt b a).
Definition loc_gt (a b : location) : bool := loc_lt b a.
Definition loc_ge (a b : location) : bool := negb (loc_gt b a).

(** _detail/iterator.hpp:88-106 [min_range_end]. *)
Definition min_range_end (end_a end_b : nat) : nat := if (end_a <=? end_b)%nat then end_a else end_b.

(** Result of a search; [LocAssert] is the failed assertion "invalid position + anchor
    combination" (l.238) or the failed precondition of [min_range_end]
    (_detail/iterator.hpp:97). *)
Inductive loc_result := LocFuel | LocAssert | Loc (l : location).

(** input_location.hpp:226-274: the loop of [get_input_location]; [cur] is the reader. *)
Fixpoint loc_loop (fuel : nat) (E : lenc) (c : counting) (inp : list N) (position : nat)
  (idx cur line_begin : nat) (line_nr : N) (column_begin : nat) (column_nr : N) : loc_result :=
  match fuel with
  | O => LocFuel
  | S fuel' =>
    let rest := skipn cur inp in
    let here := Loc (Location line_begin line_nr column_begin column_nr) in
    if (cur =? position)%nat then here                                       (* l.229-236 *)
    else if lpeek E rest =? leof E then LocAssert                            (* l.237-240 *)
    else match try_match_newline E c idx rest with
    | Some (n, idx') =>                                                      (* l.241-255 *)
      let newline_end := (cur + n)%nat in
      if negb ((column_begin <=? newline_end)%nat && (column_begin <=? position)%nat) then LocAssert
      else if negb (min_range_end newline_end position =? newline_end)%nat then here
      else loc_loop fuel' E c inp position idx' newline_end
             newline_end (unsigned_inc line_nr) newline_end 1
    | None =>                                                                (* l.256-270 *)
      let '(n, idx') := match_column E c idx rest in
      let column_end := (cur + n)%nat in
      if negb ((column_begin <=? column_end)%nat && (column_begin <=? position)%nat) then LocAssert
      else if negb (min_range_end column_end position =? column_end)%nat then here
      else loc_loop fuel' E c inp position idx' column_end
             line_begin line_nr column_end (unsigned_inc column_nr)
    end
  end.

(** input_location.hpp:210-276 [get_input_location]. *)
Definition get_input_location (E : lenc) (c : counting) (inp : list N) (position : nat) (a : anchor)
  : loc_result :=
  loc_loop (S (length inp)) E c inp position 0 (an_line_begin a)
    (an_line_begin a) (an_line_nr a) (an_line_begin a) 1.

(** ** Line annotation *)

(** input_location.hpp:303-326 [get_input_line]: the ends of the line and of its newline. *)
Fixpoint line_loop (fuel : nat) (E : lenc) (c : counting) (inp : list N) (idx line_end : nat)
  : option (nat * nat) :=
  match fuel with
  | O => None
  | S fuel' =>
    let rest := skipn line_end inp in
    if lpeek E rest =? leof E then Some (line_end, line_end)
    else match try_match_newline E c idx rest with
    | Some (n, _) => Some (line_end, (line_end + n)%nat)
    | None =>
      let '(n, idx') := match_column E c idx rest in
      line_loop fuel' E c inp idx' (line_end + n)
    end
  end.
Definition get_input_line (E : lenc) (c : counting) (inp : list N) (line_begin : nat)
  : option (nat * nat) :=
  line_loop (S (length inp)) E c inp 0 line_begin.

(** input_location.hpp:333-345: [is_cp_continuation] in [find_cp_boundary]. *)
Definition is_cp_continuation (E : lenc) (c : N) : bool :=
  match E with
  | Enc Utf8 => N.land c 0xC0 =? 0x80
  | Enc Utf16 => (0xDC00 <=? c) && (c <=? 0xDFFF)
  | _ => false
  end.
(** input_location.hpp:347-350: the loop of [find_cp_boundary], on the units [cur, end). *)
Fixpoint continuations (E : lenc) (units : list N) : nat :=
  match units with
  | [] => 0
  | c :: units' => if is_cp_continuation E c then S (continuations E units') else 0
  end.
Definition find_cp_boundary (E : lenc) (inp : list N) (cur end_ : nat) : nat :=
  (cur + continuations E (firstn (end_ - cur) (skipn cur inp)))%nat.

(** input_location.hpp:357-372 [input_line_annotation]; a lexeme is a range. *)
Record annotation := Annotation {
  an_before : nat * nat;
  an_annotated : nat * nat;
  an_after : nat * nat;
  an_truncated : bool;
  an_newline : bool;
  an_rounded : bool }.

(** input_location.hpp:374-413 [_get_input_line_annotation]; [le], [ne] are the ends of line
    and newline, [lb] the begin of the line. *)
Definition line_annotation (E : lenc) (inp : list N) (truncated : bool) (lb le ne : nat)
  (begin_ end0 : nat) : annotation :=
  let end_ := find_cp_boundary E inp end0 ne in
  let rounded := negb (end_ =? end0)%nat in
  if (min_range_end le end_ =? end_)%nat then
    Annotation (lb, begin_) (begin_, end_) (end_, le) truncated false rounded
  else
    Annotation (lb, begin_) (begin_, ne) (ne, ne) truncated true rounded.

(** input_location.hpp:415-454 [get_input_line_annotation] with an iterator. *)
Definition annotation_to (E : lenc) (c : counting) (inp : list N) (l : location) (end_ : nat)
  : option annotation :=
  match get_input_line E c inp (lo_line_begin l) with
  | None => None
  | Some (le, ne) =>
    let begin_ := lo_column_begin l in
    Some (if (begin_ =? end_)%nat then
            let end' := if (end_ =? le)%nat then ne
                        else if negb (end_ =? ne)%nat then S end_ else end_ in
            line_annotation E inp false (lo_line_begin l) le ne begin_ end'
          else if negb (min_range_end end_ ne =? end_)%nat then
            line_annotation E inp true (lo_line_begin l) le ne begin_ ne
          else line_annotation E inp false (lo_line_begin l) le ne begin_ end_)
  end.

(** _detail/iterator.hpp:56-76 [next_clamped]. *)
Definition next_clamped (iter n end_ : nat) : nat :=
  if (end_ - iter <? n)%nat then end_ else (iter + n)%nat.

(** input_location.hpp:456-479 [get_input_line_annotation] with a size. *)
Definition annotation_of (E : lenc) (c : counting) (inp : list N) (l : location) (size : nat)
  : option annotation :=
  match get_input_line E c inp (lo_line_begin l) with
  | None => None
  | Some (le, ne) =>
    let range_size := if (size =? 0)%nat then 1%nat else size in
    let begin_ := lo_column_begin l in
    let end_ := next_clamped begin_ range_size ne in
    Some (line_annotation E inp (end_ - begin_ <? size)%nat (lo_line_begin l) le ne begin_ end_)
  end.
