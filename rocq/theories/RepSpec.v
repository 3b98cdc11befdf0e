(** Specification vocabulary for error reports; of the model only errors and encodings are used. *)
From Coq Require Import String Ascii.
From Verif Require Import Prelude CodecModel CodecSpec LitModel ClassSpec TextSpec LocModel LocSpec VisModel VisSpec RepModel.
Close Scope string_scope.
Open Scope N_scope.

Definition SP : N := 0x20.

(** Decimal numerals without leading zeros. *)
Fixpoint decimal_value (acc : N) (l : list N) : option N :=
  match l with
  | [] => Some acc
  | c :: l' => if (0x30 <=? c) && (c <=? 0x39) then decimal_value (acc * 10 + (c - 0x30)) l' else None
  end.
Definition decimal (n : N) (s : list N) : Prop :=
  s <> [] /\ decimal_value 0 s = Some n /\ ((1 < length s)%nat -> hd 0 s <> 0x30).

(** A text of [n] columns: well-formed UTF-8 of [n] code points. *)
Definition occupies (t : list N) (n : nat) : Prop :=
  exists cps, Forall scalar cps /\ t = encoded Utf8 cps /\ length cps = n.

Definition bar (o : options) : list N := if is_set o visualize_use_unicode then str "│" else str "|".
Definition mark_of (k : annotation_kind) : N := match k with Primary => 0x5E | Secondary => 0x7E end.

(** Two rows: the line with its number, and below the annotated part [a] of it the marks, as many
    as [a] has columns, but at least one, and one more if the range goes on behind the end of the
    input; then the message.  [aligned] is what the columns have to do with each other. *)
Definition left_part (num : list N) (pad : nat) (o : options) : list N :=
  repeat SP pad ++ num ++ [SP] ++ bar o ++ [SP].
Definition snippet (aligned : bool) (o : options) (nr : N) (b a t : list N) (k : annotation_kind) (beyond : bool)
  (message row1 row2 : list N) : Prop :=
  exists pad num under col n,
    row1 = left_part num pad o ++ b ++ a ++ t /\ decimal nr num /\
    occupies a n /\
    row2 = under ++ repeat (mark_of k) (if beyond then S n else Nat.max 1 n) ++ [SP] ++ message /\
    ~ In (mark_of k) under /\ ~ In LF row1 /\
    occupies under col /\ (aligned = true -> occupies (left_part num pad o ++ b) col).

(** The text of a range of the input, without colors. *)
Definition shown (e : input_encoding) (o : options) (inp : list N) (r : nat * nat) : list N :=
  displayed false (lexeme_output (lexemes_of e) (firstn (snd r - fst r) (skipn (fst r) inp)) o).

Definition lines (rows : list (list N)) : list N := concat (map (fun r => r ++ [LF]) rows).

(** What reports consist of, written with an appending iterator. *)
Definition appended_outcome (f : forall W I, (W -> I -> N -> W * I) -> W * I -> outcome (W * I)) : outcome (list N) :=
  match f (list N) unit append_put ([], tt) with
  | Done o => Done (fst o) | Hangs => Hangs | Asserts => Asserts
  end.
Definition annotation_output e c inp o k l end_ (message : list N) : outcome (list N) :=
  appended_outcome (fun W I put out =>
    write_annotation put e c inp out o k l end_ (fun out _ => written put out message)).
Definition error_output e inp err o path : outcome (list N) :=
  appended_outcome (fun W I put out => write_error put e inp out err o path).

(** The annotation of the range from the column [m] of [pos] up to [end_] in text, as in C19. *)
Definition text_pieces (u : column_unit) (e : input_encoding) (inp : list N) (pos m end_ : nat)
  (b a t : nat * nat) (beyond : bool) : Prop :=
  exists lb le ne w r x,
    line_begins inp pos lb /\ rounds_down u (unit_encoding e) inp pos m /\ (lb <= m <= pos)%nat /\
    line_is inp lb le ne /\ (m <= le)%nat /\ wanted m end_ le ne w /\
    rounds_up (unit_encoding e) inp w ne r /\
    b = (lb, m) /\ a = (m, x) /\
    (((r <= le)%nat /\ x = r /\ t = (r, le)) \/ ((le < r)%nat /\ x = ne /\ t = (ne, ne))) /\
    (beyond = true <-> le = ne /\ (ne < end_)%nat).
(** The same with lines of sixteen bytes; the last byte of a line is left out unless it is
    annotated (C19). *)
Definition byte_pieces (inp : list N) (pos m end_ : nat) (b a t : nat * nat) (beyond : bool) : Prop :=
  exists lb le ne w x,
    m = pos /\ lb = (pos / 16 * 16)%nat /\ byte_line inp 16 lb ne /\ (le = ne \/ S le = ne)%nat /\ (pos <= le)%nat /\
    wanted pos end_ le ne w /\ b = (lb, pos) /\ a = (pos, x) /\
    (((w <= le)%nat /\ x = w /\ t = (w, le)) \/ ((le < w)%nat /\ x = ne /\ t = (ne, ne))) /\
    (beyond = true <-> le = ne /\ (ne < end_)%nat).
Definition pieces (e : input_encoding) (inp : list N) (pos m end_ : nat) (b a t : nat * nat) (beyond : bool) : Prop :=
  match e with
  | InText _ => text_pieces PerUnit e inp pos m end_ b a t beyond
  | InBytes => byte_pieces inp pos m end_ b a t beyond
  end.

(** The line of a position: one plus the newlines, or complete lines of sixteen bytes, before it. *)
Definition line_of (e : input_encoding) (inp : list N) (pos : nat) : nat :=
  match e with InText _ => 1 + newlines (firstn pos inp) | InBytes => 1 + pos / 16 end.

(** Where an error that begins at [m] ends: a literal at the first character that does not match,
    a class behind one unit, others say so. *)
Definition error_end (k : error_kind) (m : nat) : nat :=
  match k with
  | ExpectedLiteral _ index => m + (index + 1)
  | ExpectedClass _ => m + 1
  | ExpectedKeyword _ e | Generic _ e => e
  end.
(** Its message. *)
Definition error_message (e : input_encoding) (o : options) (k : error_kind) : list N :=
  match k with
  | ExpectedLiteral s _ => str "expected '" ++ displayed false (lexeme_output (lexemes_of e) s o) ++ str "'"
  | ExpectedKeyword s _ => str "expected keyword '" ++ displayed false (lexeme_output (lexemes_of e) s o) ++ str "'"
  | ExpectedClass name => str "expected " ++ name
  | Generic message _ => message
  end.

(** Names without color sequences (and other uses of ESC). *)
Definition clean (s : list N) : Prop := ~ In 0x1B s.
Definition clean_error (err : error) : Prop :=
  clean (er_production err) /\
  match er_kind err with ExpectedClass n => clean n | Generic m _ => clean m | _ => True end.
(** An error is not in front of its context, and does not end before it begins. *)
Definition error_in (inp : list N) (err : error) : Prop :=
  (er_context err <= er_position err <= length inp)%nat /\
  match er_kind err with ExpectedKeyword _ e | Generic _ e => (er_position err <= e)%nat | _ => True end.

(** The rows of a report: headline, path, an empty row; if the production began on another line,
    that line and an empty row; the line of the error. *)
Definition headline (err : error) : list N := str "error: while parsing " ++ er_production err.
Definition empty_row (o : options) : list N := repeat SP 5 ++ bar o.
Definition annotated_rows (e : input_encoding) (o : options) (inp : list N) (pos : nat) (endf : nat -> nat)
  (k : annotation_kind) (message : list N) (rows : list (list N)) : Prop :=
  exists m b a t beyond row1 row2, rows = [row1; row2] /\
    pieces e inp pos m (endf m) b a t beyond /\
    snippet (N.of_nat (line_of e inp pos) <? 10000) o (N.of_nat (line_of e inp pos))
      (shown e o inp b) (shown e o inp a) (shown e o inp t) k beyond message row1 row2.
Definition context_rows (e : input_encoding) (o : options) (inp : list N) (err : error) (rows : list (list N)) : Prop :=
  (line_of e inp (er_context err) = line_of e inp (er_position err) /\ rows = []) \/
  (line_of e inp (er_context err) <> line_of e inp (er_position err) /\
   exists rows', rows = rows' ++ [empty_row o] /\
     annotated_rows e o inp (er_context err) (fun _ => S (er_context err)) Secondary (str "beginning here") rows').
Definition report (e : input_encoding) (o : options) (inp : list N) (err : error) (path : option (list N))
  (t : list N) : Prop :=
  exists ctx rows, t = lines ([headline err] ++ match path with Some p => [p] | None => [] end ++ [empty_row o]
                              ++ ctx ++ rows) /\
    context_rows e o inp err ctx /\
    annotated_rows e o inp (er_position err) (error_end (er_kind err)) Primary
      (error_message e o (er_kind err)) rows.
