(** Model of the trace action.  Source: include/lexy/action/trace.hpp.

    Output iterators as in [VisModel]; locations as in [LocModel]; the parse events are a list, in
    the order in which they happen.  Strings ([const char*]) are their bytes. *)
From Coq Require Import String Ascii.
From Verif Require Import Prelude CodecModel LitModel LocModel RuleModel VisModel RepModel PtModel TvModel.
Close Scope string_scope.
Open Scope N_scope.

(** The parse events, include/lexy/dsl/base.hpp:12-86, and [debug], trace.hpp:13-20, with what
    trace.hpp uses of them.  Names of productions and operations are given; an error has its
    position and kind. *)
Inductive tevent :=
| GStart (p : nat) | GFinish (p : nat) | GCancel (p : nat)
| PStart (name : list N) (p : nat) | PFinish (p : nat) | PCancel (p : nat)
| OStart (p : nat) | OOp (name : list N) (p : nat) | OFinish (p : nat)
| Token (k : tkind) (b e : nat)
| Back (b e : nat)
| Err (p : nat) (k : error_kind)
| RStart (p : nat) | RFinish (p : nat) | RCancel (p : nat)
| Dbg (p : nat) (s : list N).

(** visualize.hpp:108-118 [write_format] with the default size of 16, for a format that can be
    longer: snprintf writes at most 15 characters and a terminator; the assertion lets 16
    pass. *)
Definition formatted (s : list N) : outcome (list N) :=
  if (length s <=? 15)%nat then Done s
  else if (length s <=? 16)%nat then Done (firstn 15 s ++ [0])
  else Asserts.

Section Out.
Context {W I : Type} (put : W -> I -> N -> W * I).
Notation out := (W * I)%type.
Notation put_char := (put_char put).
Notation write_str := (write_str put).
Notation write_color := (write_color put).
Notation visualize_lexeme := (visualize_lexeme put).
Notation write_ellipsis := (write_ellipsis put).
(** The name of a token kind, as [token_kind<void>]: [trace_action] does not pass its [TokenKind]
    on (trace.hpp:444). *)
Variables (token_name : tkind -> list N).
Variables (e : input_encoding) (inp : list N) (opts : options).
Definition max_depth : nat := N.to_nat (vo_max_tree_depth opts).

(** trace.hpp:253-258. *)
Inductive prefix := Event | Cancelled | Finished.

(** trace.hpp:275-276; the loop ends, as [cur_depth] is at most the maximal depth. *)
Fixpoint write_bars (o : out) (n : nat) : out :=
  match n with
  | O => o
  | S n' => write_bars (write_str o (if is_set opts visualize_use_unicode then str "│  " else str "  ")) n'
  end.
(** trace.hpp:260-294 [write_prefix]. *)
Definition write_prefix (o : out) (cur_depth : nat) (loc : location) (p : prefix) : outcome out :=
  let use_unicode := is_set opts visualize_use_unicode in
  let o := if (0 <? cur_depth)%nat then put_char o 0x0A else o in
  let o := write_color o opts Faint [] in
  bind (formatted (format_dec 2 (lo_line_nr loc) ++ str ":" ++ format_dec 3 (lo_column_nr loc))) (fun s =>
  let o := write_str o s in
  let o := write_str o (str ": ") in
  let o := write_color o opts Reset [] in
  Done (
    if (0 <? cur_depth)%nat then
      let o := write_bars o (cur_depth - 1) in
      match p with
      | Event => write_str o (if use_unicode then str "├──" else str "- ")
      | Cancelled =>
        let o := write_str o (if use_unicode then str "└" else str "-") in
        let o := write_color o opts Yellow [] in
        let o := write_str o (if use_unicode then str "╳" else str "x") in
        write_color o opts Reset []
      | Finished => write_str o (if use_unicode then str "┴" else str "- finish")
      end
    else o)).

(** A writer: where it writes and [_cur_depth]. *)
Definition writer : Type := out * nat.

(** trace.hpp:60-85 [write_production_start]. *)
Definition write_production_start (w : writer) (loc : location) (name : list N) : outcome writer :=
  let '(o, cur_depth) := w in
  if (cur_depth <=? max_depth)%nat then
    bind (write_prefix o cur_depth loc Event) (fun o =>
    let o := write_color o opts Bold [] in
    let o := write_str o name in
    let o := write_color o opts Reset [] in
    let o :=
      if (cur_depth =? max_depth)%nat then write_ellipsis (write_str o (str ": ")) opts
      else write_str o (str ":") in
    Done (o, S cur_depth))
  else Done (o, S cur_depth).

(** trace.hpp:87-105 [write_token]. *)
Definition write_token (w : writer) (loc : location) (k : tkind) (lexeme : list N) : outcome writer :=
  let '(o, cur_depth) := w in
  let empty := match lexeme with [] => true | _ => false end in
  if (max_depth <? cur_depth)%nat || (ignore_if_empty k && empty) then Done w
  else
    bind (write_prefix o cur_depth loc Event) (fun o =>
    let o := write_color o opts Bold [] in
    let o := write_str o (token_name k) in
    let o := write_color o opts Reset [] in
    let o :=
      if negb empty then
        visualize_lexeme (write_str o (str ": ")) (lexemes_of e) lexeme (set_flag opts visualize_space)
      else o in
    Done (o, cur_depth)).

(** trace.hpp:107-124 [write_backtrack]. *)
Definition write_backtrack (w : writer) (loc : location) (lexeme : list N) : outcome writer :=
  let '(o, cur_depth) := w in
  let empty := match lexeme with [] => true | _ => false end in
  if (max_depth <? cur_depth)%nat || empty then Done w
  else
    bind (write_prefix o cur_depth loc Event) (fun o =>
    let o := write_color o opts Yellow [Bold] in
    let o := write_str o (str "backtracked") in
    let o := write_color o opts Reset [] in
    let o := write_str o (str ": ") in
    let o := write_color o opts Yellow [] in
    let o := visualize_lexeme o (lexemes_of e) lexeme (set_flag (VisModel.reset opts visualize_use_color) visualize_space) in
    let o := write_color o opts Reset [] in
    Done (o, cur_depth)).

(** trace.hpp:126-170 [write_error]. *)
Definition write_error (w : writer) (loc : location) (k : error_kind) : outcome writer :=
  let '(o, cur_depth) := w in
  if (max_depth <? cur_depth)%nat then Done w
  else
    bind (write_prefix o cur_depth loc Event) (fun o =>
    let o := write_color o opts Red [Bold] in
    let o := write_str o (str "error") in
    let o := write_color o opts Reset [] in
    let o := write_color o opts Red [] in
    let o := write_str o (str ": ") in
    let o :=
      match k with
      | ExpectedLiteral string _ =>
        let o := write_str o (str "expected '") in
        let o := visualize_lexeme o (lexemes_of e) string opts in
        write_str o (str "'")
      | ExpectedKeyword string _ =>
        let o := write_str o (str "expected keyword '") in
        let o := visualize_lexeme o (lexemes_of e) string opts in
        write_str o (str "'")
      | ExpectedClass name => write_str (write_str o (str "expected ")) name
      | Generic message _ => write_str o message
      end in
    let o := write_color o opts Reset [] in
    Done (o, cur_depth)).

(** trace.hpp:172-195 [write_recovery_start]. *)
Definition write_recovery_start (w : writer) (loc : location) : outcome writer :=
  let '(o, cur_depth) := w in
  if (cur_depth <=? max_depth)%nat then
    bind (write_prefix o cur_depth loc Event) (fun o =>
    let o := write_color o opts Yellow [Bold] in
    let o := write_str o (str "error recovery") in
    let o := write_color o opts Reset [] in
    let o := write_color o opts Yellow [] in
    let o := write_str o (str ":") in
    let o := write_color o opts Reset [] in
    let o := if (cur_depth =? max_depth)%nat then write_ellipsis (write_str o (str " ")) opts else o in
    Done (o, S cur_depth))
  else Done (o, S cur_depth).

(** trace.hpp:197-211 [write_operation]. *)
Definition write_operation (w : writer) (loc : location) (name : list N) : outcome writer :=
  let '(o, cur_depth) := w in
  if (max_depth <? cur_depth)%nat then Done w
  else
    bind (write_prefix o cur_depth loc Event) (fun o =>
    let o := write_color o opts Bold [] in
    let o := write_str o (str "operation") in
    let o := write_color o opts Reset [] in
    let o := write_str o (str ": ") in
    let o := write_str o name in
    Done (o, cur_depth)).

(** trace.hpp:213-229 [write_debug]. *)
Definition write_debug (w : writer) (loc : location) (s : list N) : outcome writer :=
  let '(o, cur_depth) := w in
  if (max_depth <? cur_depth)%nat then Done w
  else
    bind (write_prefix o cur_depth loc Event) (fun o =>
    let o := write_color o opts Blue [Bold] in
    let o := write_str o (str "debug") in
    let o := write_color o opts Reset [] in
    let o := write_color o opts Blue [] in
    let o := write_str o (str ": ") in
    let o := write_str o s in
    let o := write_color o opts Reset [] in
    Done (o, cur_depth)).

(** trace.hpp:231-244 [write_finish], [write_cancel]. *)
Definition write_end (w : writer) (loc : location) (p : prefix) : outcome writer :=
  let '(o, cur_depth) := w in
  if (cur_depth <=? max_depth)%nat then
    bind (write_prefix o cur_depth loc p) (fun o => Done (o, pred cur_depth))
  else Done (o, pred cur_depth).

(** The action [_th], trace.hpp:305-435: the writer, the anchor, and [_previous_anchor] of the
    event handlers of the productions that are being parsed, innermost first. *)
Record th := Th { th_writer : writer; th_anchor : anchor; th_previous : list anchor }.

(** trace.hpp:426-429 [get_location]. *)
Definition get_location (h : th) (p : nat) : outcome location :=
  located (get_input_location (unit_encoding e) (default_counting e) inp p (th_anchor h)).
Definition on_writer (h : th) (w : outcome writer) : outcome th :=
  bind w (fun w => Done (Th w (th_anchor h) (th_previous h))).

(** trace.hpp:322-407 [event_handler::on]. *)
Definition on_event (h : th) (ev : tevent) : outcome th :=
  let w := th_writer h in
  match ev with
  | GStart _ | GFinish _ | GCancel _ => Done h
  | PStart name p =>
    bind (get_location h p) (fun loc =>
    bind (write_production_start w loc name) (fun w =>
    Done (Th w (anchor_of loc) (th_anchor h :: th_previous h))))
  | PFinish p =>
    bind (get_location h p) (fun loc =>
    bind (write_end w loc Finished) (fun w => Done (Th w (th_anchor h) (tl (th_previous h)))))
  | PCancel p =>
    bind (get_location h p) (fun loc =>
    bind (write_end w loc Cancelled) (fun w =>
    match th_previous h with
    | a :: l => Done (Th w a l)
    | [] => Asserts
    end))
  | OStart p => bind (get_location h p) (fun loc => on_writer h (write_production_start w loc (str "operation chain")))
  | OOp name p => bind (get_location h p) (fun loc => on_writer h (write_operation w loc name))
  | OFinish p => bind (get_location h p) (fun loc => on_writer h (write_end w loc Finished))
  | Token k b e' => bind (get_location h b) (fun loc => on_writer h (write_token w loc k (units_in inp (b, e'))))
  | Back b e' => bind (get_location h b) (fun loc => on_writer h (write_backtrack w loc (units_in inp (b, e'))))
  | Err p k => bind (get_location h p) (fun loc => on_writer h (write_error w loc k))
  | RStart p => bind (get_location h p) (fun loc => on_writer h (write_recovery_start w loc))
  | RFinish p => bind (get_location h p) (fun loc => on_writer h (write_end w loc Finished))
  | RCancel p => bind (get_location h p) (fun loc => on_writer h (write_end w loc Cancelled))
  | Dbg p s => bind (get_location h p) (fun loc => on_writer h (write_debug w loc s))
  end.
Fixpoint on_events (h : th) (l : list tevent) : outcome th :=
  match l with
  | [] => Done h
  | ev :: l' => bind (on_event h ev) (fun h => on_events h l')
  end.

(** trace.hpp:459-465 [trace_action::operator()]: the constructor of [_th] with its
    precondition (l.312), the events, [finish] (l.246-250). *)
Definition trace_to (o : out) (l : list tevent) : outcome out :=
  if (max_tree_depth_limit <? max_depth)%nat then Asserts
  else
    bind (on_events (Th (o, O) input_anchor []) l) (fun h =>
    Done (put_char (fst (th_writer h)) 0x0A)).
End Out.

(** The events of the rule engine, for [trace_to]. *)
Definition seen (production_name : nat -> list N) (describe : etag -> nat -> nat -> error_kind) (ev : event) : tevent :=
  match ev with
  | EGStart p => GStart p | EGFinish p => GFinish p | EGCancel p => GCancel p
  | EPStart q p => PStart (production_name q) p
  | EPFinish _ p => PFinish p | EPCancel _ p => PCancel p
  | EToken k b e => Token k b e
  | EBack b e => Back b e
  | EError t b e => Err b (describe t b e)
  | ERStart p => RStart p | ERFinish p => RFinish p | ERCancel p => RCancel p
  end.
