(** Specification vocabulary for locations and line annotations; of the model only the record
    [annotation] of results is used. *)
From Verif Require Import Prelude CodecModel CodecSpec SwarSpec LitModel LitSpec ClassSpec TextSpec LocModel.
Open Scope N_scope.

Definition LF : N := 0x0A.
Definition CR : N := 0x0D.

(** Every newline (LF or CR LF) ends with a line feed and every line feed ends one, so the
    newlines that end in a text are its line feeds. *)
Definition newlines (text : list N) : nat := length (filter (fun c => c =? LF) text).

(** [b] is where the line of position [p] begins: behind the last newline before [p]. *)
Definition line_begins (inp : list N) (p b : nat) : Prop :=
  (b <= p)%nat /\ (b = 0%nat \/ nth_error inp (b - 1) = Some LF) /\
  forall i, (b <= i < p)%nat -> nth_error inp i <> Some LF.

(** How columns are counted in text: by units, or by code points (a unit that is not part of
    one is a column by itself). *)
Inductive column_unit := PerUnit | PerPoint.
Definition column (u : column_unit) (E : lenc) (rest : list N) (n : nat) : Prop :=
  match u with
  | PerUnit => n = 1%nat /\ rest <> []
  | PerPoint => (exists c, reads E rest c n) \/
                (n = 1%nat /\ rest <> [] /\ forall c m, ~ reads E rest c m)
  end.
(** The first [n] units are [k] columns. *)
Inductive columns (u : column_unit) (E : lenc) : list N -> nat -> nat -> Prop :=
| columns_nil rest : columns u E rest 0 0
| columns_cons rest m n k : column u E rest m -> columns u E (skipn m rest) n k ->
    columns u E rest (m + n) (S k).

(** The position [p] belongs to the column that starts at [c]: it is its first unit, or a
    later unit of the same code point or newline. *)
Definition rounds_down (u : column_unit) (E : lenc) (inp : list N) (p c : nat) : Prop :=
  p = c \/
  exists n, (c < p < c + n)%nat /\
    (newline_at (skipn c inp) n \/
     (~ (exists m, newline_at (skipn c inp) m) /\ column u E (skipn c inp) n)).

(** Numbers are of type [unsigned]. *)
Definition as_unsigned (n : nat) : N := N.of_nat n mod 2 ^ 32.

(** Well-formed text, and the code points behind the last newline. *)
Definition encoded (e : encoding) (cps : list N) : list N :=
  concat (map (encode_code_point e) cps).
Definition valid (e : encoding) (cps : list N) : Prop :=
  Forall (fun c => match e with Ascii => c < 128 | _ => scalar c end) cps.
Fixpoint last_line (cps : list N) : list N :=
  match cps with
  | [] => []
  | c :: cps' => if existsb (fun x => x =? LF) cps' then last_line cps'
                 else if c =? LF then cps' else c :: cps'
  end.
(** A position between a CR and a LF is inside a newline. *)
Definition inside_newline (before after : list N) : Prop :=
  (exists l, before = l ++ [CR]) /\ (exists l, after = LF :: l).

(** ** Annotations *)

(** [b, le) is a line of the input without its newline, [le, ne) its newline, which is
    missing at the end of the input. *)
Definition line_is (inp : list N) (b le ne : nat) : Prop :=
  (b <= le <= ne)%nat /\ (ne <= length inp)%nat /\
  (forall i n, (b <= i < le)%nat -> ~ newline_at (skipn i inp) n) /\
  (newline_at (skipn le inp) (ne - le) \/ (le = ne /\ ne = length inp)).

(** Lines of [w] bytes: the last one may be shorter. *)
Definition byte_line (inp : list N) (w b ne : nat) : Prop :=
  (exists k, b = (k * w)%nat) /\ (b <= ne <= length inp)%nat /\
  (ne = (b + w)%nat \/ (ne = length inp /\ ne < b + w)%nat).

(** Units that continue a code point (UTF-8: 10xxxxxx; UTF-16: low surrogates). *)
Definition continues (E : lenc) (c : N) : Prop :=
  match E with
  | Enc Utf8 => 0x80 <= c < 0xC0
  | Enc Utf16 => 0xDC00 <= c < 0xE000
  | _ => False
  end.
(** [e] is [p] rounded up to the next position before which a code point can end, at most
    [ne]. *)
Definition rounds_up (E : lenc) (inp : list N) (p ne e : nat) : Prop :=
  (p <= e)%nat /\
  (forall i, (p <= i < e)%nat -> exists c, nth_error inp i = Some c /\ continues E c) /\
  (e = ne \/ ((e < ne)%nat /\ exists c, nth_error inp e = Some c /\ ~ continues E c)).

(** The end of the range to be annotated: an empty range is widened by one unit, or by the
    whole newline, if there is one; the end of the line clips. *)
Definition wanted (b end_ le ne w : nat) : Prop :=
  ((b < end_)%nat /\ w = Nat.min end_ ne) \/
  (b = end_ /\ b = le /\ w = ne) \/
  (b = end_ /\ (b < le)%nat /\ w = S b).

(** The annotation of a range that begins at [b] and is wanted to end at [w], on the line
    [lb, le) with newline [le, ne): consecutive pieces that start at the begin of the line and
    end at its end.  A range that reaches into the newline covers all of it. *)
Definition annotates (E : lenc) (inp : list N) (lb le ne b w : nat) (a : annotation) : Prop :=
  exists r e x, rounds_up E inp w ne r /\
    an_before a = (lb, b) /\ an_annotated a = (b, e) /\ an_after a = (e, x) /\
    (lb <= b <= e)%nat /\ (e <= x)%nat /\
    (((r <= le)%nat /\ e = r /\ x = le /\ an_newline a = false) \/
     ((le < r)%nat /\ e = ne /\ x = ne /\ an_newline a = true)) /\
    (an_rounded a = true <-> w <> r).
