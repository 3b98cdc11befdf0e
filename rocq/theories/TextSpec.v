(** Specification vocabulary for identifiers, until, newlines and delimited content. *)
From Verif Require Import Prelude CodecModel CodecSpec SwarModel SwarSpec LitModel LitSpec
  ClassModel ClassSpec TextModel.
Open Scope N_scope.

(** The first [n] units of the input are a character of the class [e]. *)
Definition a_char (E : lenc) (e : cexpr) (rest : list N) (n : nat) : Prop :=
  exists c, reads E rest c n /\ denotes e c.
Definition no_char (E : lenc) (e : cexpr) (rest : list N) : Prop := forall n, ~ a_char E e rest n.

(** The first [n] units are zero or more characters of the class [e]. *)
Inductive chars (E : lenc) (e : cexpr) : list N -> nat -> Prop :=
| chars_nil rest : chars E e rest 0
| chars_cons rest n m : a_char E e rest n -> chars E e (skipn n rest) m ->
    chars E e rest (n + m).

(** The first [n] units have the form of an identifier: a leading character, then trailing
    characters. *)
Definition id_text (E : lenc) (lead trail : cexpr) (rest : list N) (n : nat) : Prop :=
  exists n1 n2, a_char E lead rest n1 /\ chars E trail (skipn n1 rest) n2 /\ n = (n1 + n2)%nat.

(** The identifier at the front of the input: of that form, and no trailing character follows. *)
Definition id_at (E : lenc) (lead trail : cexpr) (rest : list N) (n : nat) : Prop :=
  id_text E lead trail rest n /\ no_char E trail (skipn n rest).

(** All units belong to the encoding, and none is its in-band end marker. *)
Definition text_units (E : lenc) (rest : list N) : Prop :=
  Forall (fun u => u < lbound E) rest /\ no_eof E rest.

(** How a reserved word is compared with the identifier: exactly, or ignoring the case of
    ASCII letters (the reserved words are then written in lower case, case_folding.hpp:22-30). *)
Definition seen_as (f : folding) (lexeme : list N) : list N :=
  match f with AsciiFold => map lower lexeme | _ => lexeme end.

Definition is_prefix (w l : list N) : Prop := exists r, l = w ++ r.
Definition is_suffix (w l : list N) : Prop := exists r, l = r ++ w.
Definition is_infix (w l : list N) : Prop := exists a b, l = a ++ w ++ b.

(** What the user asked to reserve, identifier.hpp and docs/content/reference/dsl/identifier.adoc. *)
Definition reserves (r : reserve) (lexeme : list N) : Prop :=
  exists w, In w (map l_units (rs_words r)) /\
    match rs_kind r with
    | Whole => seen_as (rs_fold r) lexeme = w
    | Prefix => is_prefix w (seen_as (rs_fold r) lexeme)
    | Containing => is_infix w (seen_as (rs_fold r) lexeme)
    | Suffix => is_suffix w (seen_as (rs_fold r) lexeme)
    end.
Definition reserved_by (rs : list reserve) (lexeme : list N) : Prop :=
  exists r, In r rs /\ reserves r lexeme.

(** The reserved words are plain literals; case folding is none or ASCII. *)
Definition plain_words (E : lenc) (r : reserve) : Prop :=
  rs_fold r <> UnicodeFold /\
  forall l, In l (rs_words r) -> l_class l = None /\ l_value l = 0 /\ no_eof E (l_units l).

(** A word of the set occurs in the identifier other than at its end. *)
Definition overlapped (r : reserve) (lexeme : list N) : Prop :=
  exists a v b, seen_as (rs_fold r) lexeme = a ++ v ++ b /\ b <> [] /\
    In v (map l_units (rs_words r)).

(** No predicate is a [reserve_suffix] that can go wrong on this identifier. *)
Definition exact_on (rs : list reserve) (lexeme : list N) : Prop :=
  Forall (fun r => rs_kind r <> Suffix \/ ~ overlapped r lexeme) rs.

(** The words of one [reserve] call: the keywords themselves, as literals. *)
Definition reserve_words (ws : list (list N)) : reserve :=
  Reserve Whole NoFold (map (fun w => Literal w 0 None) ws).

(** A token rule depends on the units in front of the reader only, matches at least zero and
    at most all of them. *)
Definition bounded (cond : list N -> option nat) : Prop :=
  forall rest n, cond rest = Some n -> (n <= length rest)%nat.

(** [cond] first matches after [k] units, and then [n] units. *)
Definition first_match (cond : list N -> option nat) (rest : list N) (k n : nat) : Prop :=
  (k <= length rest)%nat /\ cond (skipn k rest) = Some n /\
  forall j, (j < k)%nat -> cond (skipn j rest) = None.
Definition never_matches (cond : list N -> option nat) (rest : list N) : Prop :=
  forall j, (j <= length rest)%nat -> cond (skipn j rest) = None.

(** ** Delimited content *)

(** One item of the content, with its extent. *)
Inductive piece :=
| Char (b e : nat)                     (* a character of the class *)
| Foreign (b e : nat)                  (* something else; it is skipped with an error *)
| Escaped (b m e : nat) (i : option nat).  (* escape token [b, m), branch [i] ran over [m, e) *)
Definition p_begin (p : piece) : nat := match p with Char b _ | Foreign b _ | Escaped b _ _ _ => b end.
Definition p_end (p : piece) : nat := match p with Char _ e | Foreign _ e | Escaped _ _ e _ => e end.

(** The first escape of the list whose token matches. *)
Definition escape_here (escs : list escape) (rest : list N) (x : escape) (n : nat) : Prop :=
  exists pre post, escs = pre ++ x :: post /\ es_token x rest = Some n /\
    Forall (fun y => es_token y rest = None) pre.
Definition no_escape (escs : list escape) (rest : list N) : Prop :=
  Forall (fun y => es_token y rest = None) escs.
(** The first branch that is taken. *)
Definition branch_here (x : escape) (rest : list N) (i n : nat) : Prop :=
  exists br, nth_error (es_branches x) i = Some br /\ br rest = Some n /\
    forall j b, (j < i)%nat -> nth_error (es_branches x) j = Some b -> b rest = None.
Definition no_branch (x : escape) (rest : list N) : Prop :=
  Forall (fun b => b rest = None) (es_branches x).

(** The content may go on here: neither the closing delimiter nor a limit nor the end. *)
Definition goes_on (close : list N -> option nat) (limit : option (list N -> option nat))
  (rest : list N) : Prop :=
  close rest = None /\ rest <> [] /\
  match limit with Some l => l rest = None | None => True end.

(** How much is skipped of something that is not a character of the class: one to four units
    that are there, and not more than the character if there is one. *)
Definition foreign (E : lenc) (rest : list N) (n : nat) : Prop :=
  (1 <= n <= 4)%nat /\ (n <= length rest)%nat /\ forall c m, reads E rest c m -> n = 1%nat \/ n = m.

(** [content p ps q]: the input from [p] up to [q] is the sequence of items [ps]; the
    closing delimiter does not match at the start of any of them. *)
Section Content.
Variables (E : lenc) (inp : list N) (e : cexpr).
Variables (close : list N -> option nat) (limit : option (list N -> option nat)).
Variable escs : list escape.

Inductive content : nat -> list piece -> nat -> Prop :=
| content_nil p : content p [] p
| content_char p n ps q :
    goes_on close limit (skipn p inp) -> no_escape escs (skipn p inp) ->
    a_char E e (skipn p inp) n ->
    content (p + n) ps q -> content p (Char p (p + n) :: ps) q
| content_foreign p n ps q :
    goes_on close limit (skipn p inp) -> no_escape escs (skipn p inp) ->
    no_char E e (skipn p inp) -> foreign E (skipn p inp) n ->
    content (p + n) ps q -> content p (Foreign p (p + n) :: ps) q
| content_escape p x n i m ps q :
    goes_on close limit (skipn p inp) -> escape_here escs (skipn p inp) x n ->
    branch_here x (skipn (p + n) inp) i m ->
    content (p + n + m) ps q -> content p (Escaped p (p + n) (p + n + m) (Some i) :: ps) q
| content_invalid p x n ps q :
    goes_on close limit (skipn p inp) -> escape_here escs (skipn p inp) x n ->
    no_branch x (skipn (p + n) inp) ->
    content (p + n) ps q -> content p (Escaped p (p + n) (p + n) None :: ps) q.
End Content.

(** What the user's sink and error callback see of the items: neighbouring characters are
    passed on as one lexeme; [b] is where the current lexeme began. *)
Fixpoint reported (b : nat) (ps : list piece) (q : nat) : list dev :=
  let lexeme e := if (b <? e)%nat then [DChars b e] else [] in
  match ps with
  | [] => lexeme q
  | Char _ _ :: ps => reported b ps q
  | Foreign b' e' :: ps => lexeme b' ++ DBadChar b' e' :: reported e' ps q
  | Escaped b' m e' (Some i) :: ps => lexeme b' ++ DEscape b' m :: DBranch i m e' :: reported e' ps q
  | Escaped b' m e' None :: ps => lexeme b' ++ DEscape b' m :: DBadEscape b' m :: reported e' ps q
  end.

(** The events seen as ranges of the input. *)
Definition extent (d : dev) : option (nat * nat) :=
  match d with
  | DChars b e | DEscape b e | DBranch _ b e | DBadChar b e => Some (b, e)
  | DBadEscape _ _ | DMissing _ _ => None
  end.
Fixpoint extents (ds : list dev) : list (nat * nat) :=
  match ds with
  | [] => []
  | d :: ds => match extent d with Some r => r :: extents ds | None => extents ds end
  end.
(** Each range starts where the one before it ended; together they go from [b] to [q]. *)
Fixpoint tiles (b : nat) (rs : list (nat * nat)) (q : nat) : Prop :=
  match rs with
  | [] => b = q
  | (x, y) :: rs => x = b /\ (x <= y)%nat /\ tiles y rs q
  end.
Definition text_of (inp : list N) (r : nat * nat) : list N := firstn (snd r - fst r) (skipn (fst r) inp).

(** Escape tokens consume something. *)
Definition consuming (escs : list escape) : Prop :=
  Forall (fun x => forall rest n, es_token x rest = Some n -> (1 <= n <= length rest)%nat) escs /\
  Forall (fun x => Forall bounded (es_branches x)) escs.

(** The word loop passes over ordinary characters only: at each of them the content goes on, no
    escape begins, and the unit is a character of the class by itself. *)
Definition skips_ordinary (E : lenc) (inp : list N) (e : cexpr) (close : list N -> option nat)
  (limit : option (list N -> option nat)) (escs : list escape) (skip : nat -> nat) : Prop :=
  forall p, (p <= length inp)%nat -> (p <= skip p)%nat /\
    forall j, (p <= j < skip p)%nat ->
      goes_on close limit (skipn j inp) /\ no_escape escs (skipn j inp) /\ a_char E e (skipn j inp) 1.

(** [l] is read unit by unit: each of its units is a character of the class. *)
Definition unit_class (E : lenc) (e : cexpr) (inp : list N) : Prop :=
  forall j, (j < length inp)%nat -> a_char E e (skipn j inp) 1.

(** A token that matches only where the unit [c] is in front. *)
Definition begins_with (token : list N -> option nat) (c : N) : Prop :=
  forall rest n, token rest = Some n -> exists r, rest = c :: r.

(** The width of the code units of an encoding whose end marker is the largest unit: those are
    the encodings with word access. *)
Definition unit_width (E : lenc) (w : N) : Prop := lbound E = 2 ^ w /\ leof E = 2 ^ w - 1.

(** How delimited ends for a content [ps] of [start, q): at the closing delimiter, with what
    the content reports; or with an error where there is none and the content cannot go on.
    [b] is where the first lexeme begins. *)
Definition outcome (inp : list N) (close : list N -> option nat)
  (limit : option (list N -> option nat)) (start b : nat) (ps : list piece) (q : nat) (r : dres)
  : Prop :=
  (exists n, close (skipn q inp) = Some n /\ r = DClosed (reported b ps q) q (q + n)) \/
  (close (skipn q inp) = None /\ ~ goes_on close limit (skipn q inp) /\
   r = DFail (reported b ps q ++ [DMissing start q]) q).
