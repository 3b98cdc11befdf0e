(** Model of error reports.  Source: include/lexy_ext/report_error.hpp.

    Output iterators as in [VisModel].  Strings ([const char*]) are their bytes. *)
From Coq Require Import String Ascii.
From Verif Require Import Prelude CodecModel LitModel LocModel VisModel.
Close Scope string_scope.
Open Scope N_scope.

(** Writing ends with an iterator, does not end, or fails an assertion (of
    [get_input_location]). *)
Inductive outcome (A : Type) := Done (x : A) | Hangs | Asserts.
Arguments Done {A} x.
Arguments Hangs {A}.
Arguments Asserts {A}.
Definition bind {A B} (x : outcome A) (f : A -> outcome B) : outcome B :=
  match x with Done y => f y | Hangs => Hangs | Asserts => Asserts end.

(** The encoding of the input: the default counting (input_location.hpp:118-133), and how its
    lexemes are visualized.  The byte encoding has the units and the eof of the default
    encoding (encoding.hpp:26-46, 180-205). *)
Inductive input_encoding := InText (E : lenc) | InBytes.
Definition unit_encoding (e : input_encoding) : lenc := match e with InText E => E | InBytes => Default end.
Definition default_counting (e : input_encoding) : counting :=
  match e with InText _ => CUnits | InBytes => CBytes 16 end.
Definition lexemes_of (e : input_encoding) : lexeme_encoding :=
  match e with InText E => VFlat (VText E) | InBytes => VFlat VBytes end.
(** The units of a lexeme given by its range. *)
Definition units_in (inp : list N) (r : nat * nat) : list N := firstn (snd r - fst r) (skipn (fst r) inp).

(** The conversion [%4zd] of printf, l.144.  The argument is an [unsigned], at most ten digits.
    Simplified: passing an [unsigned] where a signed size is read. *)
Fixpoint dec_digits (k : nat) (n : N) : list N :=
  match k with
  | O => []
  | S k' => dec_digits k' (n / 10) ++ [0x30 + n mod 10]
  end.
Definition dec_size (n : N) : nat :=
  if n <? 10 then 1 else if n <? 100 then 2 else if n <? 1000 then 3 else if n <? 10000 then 4
  else if n <? 100000 then 5 else if n <? 1000000 then 6 else if n <? 10000000 then 7
  else if n <? 100000000 then 8 else if n <? 1000000000 then 9 else 10.
Definition format_dec (width : nat) (n : N) : list N :=
  repeat 0x20 (width - dec_size n) ++ dec_digits (dec_size n) n.

(** report_error.hpp:15-24, 27-35. *)
Inductive diagnostic_kind := DError | DWarning | DNote | DInfo | DDebug | DFixit | DHelp.
Inductive annotation_kind := Primary | Secondary.

(** The two overloads of [get_input_line_annotation]: an end or a size. *)
Inductive range_end := EndAt (p : nat) | Size (n : nat).
Definition get_annotation (E : lenc) (c : counting) (inp : list N) (l : location) (e : range_end)
  : option annotation :=
  match e with EndAt p => annotation_to E c inp l p | Size n => annotation_of E c inp l n end.

(** The errors, include/lexy/error.hpp: expected_literal, expected_keyword,
    expected_char_class, others. *)
Inductive error_kind :=
| ExpectedLiteral (string : list N) (index : nat)
| ExpectedKeyword (string : list N) (end_ : nat)
| ExpectedClass (name : list N)
| Generic (message : list N) (end_ : nat).
(** error.hpp: the context (production, position) and the error (position, kind). *)
Record error := Error { er_production : list N; er_context : nat; er_position : nat; er_kind : error_kind }.

Section Out.
Context {W I : Type} (put : W -> I -> N -> W * I).
Notation out := (W * I)%type.
Notation put_char := (put_char put).
Notation write_str := (write_str put).
Notation write_color := (write_color put).
Notation visualize_lexeme := (visualize_lexeme put).

(** report_error.hpp:51-94 [write_message]. *)
Definition write_message (o : out) (opts : options) (kind : diagnostic_kind)
  (message : out -> options -> out) : out :=
  let o :=
    match kind with
    | DError => write_str (write_color o opts Red [Bold]) (str "error: ")
    | DWarning => write_str (write_color o opts Yellow [Bold]) (str " warn: ")
    | DNote => write_str (write_color o opts Bold []) (str " note: ")
    | DInfo => write_str (write_color o opts Bold []) (str " info: ")
    | DDebug => write_str (write_color o opts Bold []) (str "debug: ")
    | DFixit => write_str (write_color o opts Bold []) (str "fixit: ")
    | DHelp => write_str (write_color o opts Bold []) (str " help: ")
    end in
  let o := write_color o opts Reset [] in
  let o := message o opts in
  put_char o 0x0A.

(** report_error.hpp:97-108 [write_path]. *)
Definition write_path (o : out) (opts : options) (path : list N) : out :=
  let o := write_color o opts Blue [] in
  let o := write_str o path in
  let o := write_color o opts Reset [] in
  put_char o 0x0A.

(** report_error.hpp:191-197 [column]. *)
Definition column (opts : options) : list N :=
  if is_set opts visualize_use_unicode then str "│" else str "|".

(** report_error.hpp:110-123 [write_empty_annotation]. *)
Definition write_empty_annotation (o : out) (opts : options) : out :=
  let o := write_str o (str "     ") in
  let o := write_str o (column opts) in
  put_char o 0x0A.

(** report_error.hpp:199-215 [colorize_underline], l.217-228 [underline]. *)
Definition colorize_underline (o : out) (opts : options) (kind : annotation_kind) : out :=
  match kind with Primary => write_color o opts Red [Bold] | Secondary => write_color o opts Yellow [] end.
Definition underline (kind : annotation_kind) : list N :=
  match kind with Primary => str "^" | Secondary => str "~" end.

(** report_error.hpp:167-168, 175-176: the loops [for (auto i = 0u; i != count; ++i)] over an
    [unsigned], which do not end if [count] (a std::size_t) is greater than all of them. *)
Definition write_times (o : out) (count : N) (s : list N) : outcome out :=
  if 2 ^ 32 <=? count then Hangs
  else Done (write_str o (concat (repeat s (N.to_nat count)))).

(** report_error.hpp:125-188 [write_annotation].  That the annotation is found is a matter of
    fuel. *)
Definition write_annotation (e : input_encoding) (c : counting) (inp : list N) (o : out) (opts : options)
  (kind : annotation_kind) (begin_location : location) (end_ : range_end)
  (message : out -> options -> out) : outcome out :=
  match get_annotation (unit_encoding e) c inp begin_location end_ with
  | None => Hangs
  | Some line =>
    let before := units_in inp (an_before line) in
    let annotated := units_in inp (an_annotated line) in
    let after := units_in inp (an_after line) in
    let annotate_eof := an_truncated line && negb (an_newline line) in       (* l.136-139 *)
    let o := write_color o opts Blue [] in
    let o := write_format put o (format_dec 4 (lo_line_nr begin_location) ++ str " ") in
    let o := write_color o opts Reset [] in
    let o := write_str o (column opts) in
    let o := put_char o 0x20 in
    let o := visualize_lexeme o (lexemes_of e) before opts in
    let o := colorize_underline o opts kind in
    let o := visualize_lexeme o (lexemes_of e) annotated (reset opts visualize_use_color) in
    let o := write_color o opts Reset [] in
    let o := visualize_lexeme o (lexemes_of e) after opts in
    let o := put_char o 0x0A in
    let o := write_str o (str "     ") in                                    (* l.161-163 *)
    let o := write_str o (column opts) in
    let o := put_char o 0x20 in
    bind (write_times o (display_width (lexemes_of e) before opts) (str " ")) (fun o =>
    let o := colorize_underline o opts kind in
    let underline_count := display_width (lexemes_of e) annotated opts in
    bind (write_times o underline_count (underline kind)) (fun o =>
    let o := if (underline_count =? 0) || annotate_eof then write_str o (underline kind) else o in
    let o := put_char o 0x20 in
    let o := message o (reset opts visualize_use_color) in
    let o := put_char o 0x0A in
    Done (write_color o opts Reset [])))
  end.

(** [get_input_location] as an outcome. *)
Definition located (r : loc_result) : outcome location :=
  match r with LocFuel => Hangs | LocAssert => Asserts | Loc l => Done l end.

(** report_error.hpp:235-315 [write_error]; [path] may be null. *)
Definition write_error (e : input_encoding) (inp : list N) (o : out) (err : error) (opts : options)
  (path : option (list N)) : outcome out :=
  let E := unit_encoding e in
  let c := default_counting e in
  bind (located (get_input_location E c inp (er_context err) input_anchor)) (fun context_location =>
  bind (located (get_input_location E c inp (er_position err) (anchor_of context_location))) (fun location =>
  let o := write_message o opts DError (fun o _ =>
    write_str (write_str o (str "while parsing ")) (er_production err)) in
  let o := match path with Some p => write_path o opts p | None => o end in
  let o := write_empty_annotation o opts in
  bind
    (if negb (lo_line_nr location =? lo_line_nr context_location) then
       bind (write_annotation e c inp o opts Secondary context_location (EndAt (S (er_context err)))
               (fun o _ => write_str o (str "beginning here"))) (fun o =>
       Done (write_empty_annotation o opts))
     else Done o) (fun o =>
  match er_kind err with
  | ExpectedLiteral string index =>
    write_annotation e c inp o opts Primary location (Size (index + 1)) (fun o opts =>
      let o := write_str o (str "expected '") in
      let o := visualize_lexeme o (lexemes_of e) string opts in
      write_str o (str "'"))
  | ExpectedKeyword string end_ =>
    write_annotation e c inp o opts Primary location (EndAt end_) (fun o opts =>
      let o := write_str o (str "expected keyword '") in
      let o := visualize_lexeme o (lexemes_of e) string opts in
      write_str o (str "'"))
  | ExpectedClass name =>
    write_annotation e c inp o opts Primary location (Size 1) (fun o _ =>
      write_str (write_str o (str "expected ")) name)
  | Generic message end_ =>
    write_annotation e c inp o opts Primary location (EndAt end_) (fun o _ => write_str o message)
  end))).

(** report_error.hpp:321-350: the sink, called for every error and then finished; it returns
    how many there were.  (The iterator it was copied from is not changed.) *)
Fixpoint sink_calls (e : input_encoding) (inp : list N) (opts : options) (path : option (list N))
  (s : out * N) (errs : list error) : outcome (out * N) :=
  match errs with
  | [] => Done s
  | err :: errs' =>
    bind (write_error e inp (fst s) err opts path) (fun o =>
    sink_calls e inp opts path (o, snd s + 1) errs')
  end.
Definition report_errors (e : input_encoding) (inp : list N) (opts : options) (path : option (list N))
  (o : out) (errs : list error) : outcome (out * N) :=
  bind (sink_calls e inp opts path (o, 0) errs) (fun '(o, count) =>
  Done (if negb (count =? 0) then put_char o 0x0A else o, count)).
End Out.
