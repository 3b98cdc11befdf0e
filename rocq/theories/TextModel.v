(** Model of identifiers and keywords, until, newline/eof/eol and delimited content.
    Source: include/lexy/dsl/identifier.hpp, dsl/until.hpp, dsl/newline.hpp, dsl/eof.hpp,
    dsl/delimited.hpp.

    A reader is the list of the remaining units (or a position in the input); [E] is the
    encoding.  The loops that advance a whole word at a time on buffers (identifier.hpp:53-59,
    until.hpp:15-34) are left out here, they are the subject of [SwarModel] and C06; the one of
    delimited (delimited.hpp:52-96) is the parameter [skip] of [del_loop]. *)
From Verif Require Import Prelude CodecModel SwarModel LitModel ClassModel.
Open Scope N_scope.

(** ** Identifiers *)

(** Result of matching a token: a match of [n] units, none, or (distinct) out of fuel. *)
Inductive tres := TOut | TNo | TYes (n : nat).

(** identifier.hpp:50-65: [while (true)] over the trailing characters; the number of units. *)
Fixpoint trailing_run (fuel : nat) (E : lenc) (trail : cclass) (rest : list N) : tres :=
  match fuel with
  | O => TOut
  | S fuel' =>
    match class_try E trail rest with
    | None => TYes 0
    | Some n =>
      match trailing_run fuel' E trail (skipn n rest) with
      | TYes m => TYes (n + m)
      | r => r
      end
    end
  end.

(** identifier.hpp:42-69 [_idp::tp::try_parse]. *)
Definition pattern_try (E : lenc) (lead trail : cclass) (rest : list N) : tres :=
  match class_try E lead rest with
  | None => TNo
  | Some n =>
    match trailing_run (S (length rest)) E trail (skipn n rest) with
    | TYes m => TYes (n + m)
    | r => r
    end
  end.

(** The reserve predicates.  Each call of [reserve] etc. makes a literal set with one case
    folding (identifier.hpp:232-265, [_make_reserve] 211-230 turns keywords into literals). *)
Inductive reserve_kind := Whole | Prefix | Containing | Suffix.
Record reserve := Reserve { rs_kind : reserve_kind; rs_fold : folding; rs_words : list literal }.

Section Fold.
Variable fold : N -> N.      (* the Unicode case folding table, see [LitModel] *)

(** Whether [reader.peek() == eof] at [pos] of the partial input [lexeme]. *)
Definition at_eof (E : lenc) (lexeme : list N) (pos : nat) : bool :=
  lpeek E (skipn pos lexeme) =? leof E.

(** identifier.hpp:99-118 [_idcp::is_reserved]. *)
Fixpoint contains_loop (fuel : nat) (E : lenc) (f : folding) (ls : list literal) (lexeme : list N)
  (pos : nat) : option bool :=
  match fuel with
  | O => None
  | S fuel' =>
    match set_try fold f E ls lexeme pos with
    | NoFuel => None
    | Match (Some _) _ => Some true
    | Match None _ =>
      if at_eof E lexeme pos then Some false
      else contains_loop fuel' E f ls lexeme (S pos)
    end
  end.

(** identifier.hpp:119-139 [_idsp::is_reserved].  A successful [try_match_token] moves the
    reader behind the match, also if that is not the end of the lexeme. *)
Fixpoint suffix_loop (fuel : nat) (E : lenc) (f : folding) (ls : list literal) (lexeme : list N)
  (pos : nat) : option bool :=
  match fuel with
  | O => None
  | S fuel' =>
    match set_try fold f E ls lexeme pos with
    | NoFuel => None
    | Match (Some _) p =>
      if at_eof E lexeme p then Some true
      else suffix_loop fuel' E f ls lexeme (S p)
    | Match None _ =>
      if at_eof E lexeme pos then Some false
      else suffix_loop fuel' E f ls lexeme (S pos)
    end
  end.

(** identifier.hpp:78-139: [is_reserved] of [_idrp], [_idpp], [_idcp], [_idsp]. *)
Definition is_reserved (E : lenc) (r : reserve) (lexeme : list N) : option bool :=
  match rs_kind r with
  | Whole =>
    match set_try fold (rs_fold r) E (rs_words r) lexeme 0 with
    | NoFuel => None
    | Match (Some _) p => Some (at_eof E lexeme p)
    | Match None _ => Some false
    end
  | Prefix =>
    match set_try fold (rs_fold r) E (rs_words r) lexeme 0 with
    | NoFuel => None
    | Match (Some _) _ => Some true
    | Match None _ => Some false
    end
  | Containing => contains_loop (S (length lexeme)) E (rs_fold r) (rs_words r) lexeme 0
  | Suffix => suffix_loop (S (length lexeme)) E (rs_fold r) (rs_words r) lexeme 0
  end.

(** The fold expression [(ReservedPredicate::is_reserved(input) || ...)], l.159 and 187. *)
Fixpoint any_reserved (E : lenc) (rs : list reserve) (lexeme : list N) : option bool :=
  match rs with
  | [] => Some false
  | r :: rs' =>
    match is_reserved E r lexeme with
    | None => None
    | Some true => Some true
    | Some false => any_reserved E rs' lexeme
    end
  end.

(** An identifier rule. *)
Record ident := Ident { id_lead : cclass; id_trail : cclass; id_reserved : list reserve }.

(** identifier.hpp:144-172 [_id::p::parse] up to the whitespace and the continuation: the
    identifier failed (with the error of the leading class, l.71-75), or its token and lexeme
    are the first [n] units, with or without the error [reserved_identifier] for that range. *)
Inductive id_result := IdFuel | IdExpected | IdLexeme (n : nat) (reserved_error : bool).
Definition id_parse (E : lenc) (i : ident) (rest : list N) : id_result :=
  match pattern_try E (id_lead i) (id_trail i) rest with
  | TOut => IdFuel
  | TNo => IdExpected
  | TYes n =>
    match any_reserved E (id_reserved i) (firstn n rest) with
    | None => IdFuel
    | Some b => IdLexeme n b
    end
  end.

(** identifier.hpp:174-209 [_id::bp]: [try_parse]; [finish] then takes the same token. *)
Definition id_try (E : lenc) (i : ident) (rest : list N) : tres :=
  match pattern_try E (id_lead i) (id_trail i) rest with
  | TYes n =>
    match any_reserved E (id_reserved i) (firstn n rest) with
    | None => TOut
    | Some true => TNo
    | Some false => TYes n
    end
  | r => r
  end.
End Fold.

(** identifier.hpp:351-361 [_kw::tp::try_parse]; [kw_try] is in [LitModel].  [keyword(id)]
    uses the trailing class of the identifier (l.317-324). *)
Definition trailing_next (E : lenc) (trail : cclass) (us : list N) : bool :=
  match class_try E trail us with Some _ => true | None => false end.
Definition keyword_try (E : lenc) (i : ident) (cs : list N) (rest : list N) : bool * nat :=
  kw_try E rest cs (trailing_next E (id_trail i)) 0.

(** identifier.hpp:363-376 [_kw::tp::report_error]: the range of the error is the whole
    identifier at this position (empty if there is none); [None] is out of fuel. *)
Definition keyword_error (E : lenc) (i : ident) (rest : list N) : option nat :=
  match pattern_try E (id_lead i) (id_trail i) rest with
  | TOut => None
  | TNo => Some 0%nat
  | TYes n => Some n
  end.

(** ** Until *)

(** until.hpp:73-112 [_until::tp::try_parse]: success and the number of units up to [end].
    [cond] is the condition, a token rule: the number of units it matches. *)
Fixpoint until_try (E : lenc) (cond : list N -> option nat) (rest : list N) : bool * nat :=
  match cond rest with
  | Some n => (true, n)
  | None =>
    match rest with
    | [] => (false, 0%nat)
    | c :: rest' =>
      if c =? leof E then (false, 0%nat)
      else let '(ok, n) := until_try E cond rest' in (ok, S n)
    end
  end.

(** until.hpp:36-71 [_until_eof::tp::try_parse], which always succeeds. *)
Fixpoint until_eof_try (E : lenc) (cond : list N -> option nat) (rest : list N) : nat :=
  match rest with
  | [] => 0
  | c :: rest' =>
    if c =? leof E then 0%nat
    else match cond rest with
         | Some n => n
         | None => S (until_eof_try E cond rest')
         end
  end.

(** ** Newline, eof, eol *)

(** newline.hpp:24-25 [_nl]: [literal_set("\n", "\r\n")]. *)
Definition newline_set : list literal := [Literal [0x0A] 0 None; Literal [0x0D; 0x0A] 1 None].
Definition newline_try (E : lenc) (rest : list N) : tres :=
  match set_try (fun c => c) NoFold E newline_set rest 0 with
  | NoFuel => TOut
  | Match (Some _) n => TYes n
  | Match None _ => TNo
  end.

(** eof.hpp:25-31 [_eof::bp::try_parse]. *)
Definition eof_try (E : lenc) (rest : list N) : bool := lpeek E rest =? leof E.

(** What a rule that looks at the end of the input or line does: it produces the eof token
    (which is empty), a newline token of [n] units, or an error at the current position; the
    flag says whether parsing continues. *)
Inductive line_end := LEof | LNewline (n : nat) | LError (continues : bool) | LFuel.

(** eof.hpp:49-68 [_eof::p::parse]. *)
Definition eof_parse (E : lenc) (rest : list N) : line_end :=
  if lpeek E rest =? leof E then LEof else LError true.

(** newline.hpp:38-42 [_eol::bp::try_parse]. *)
Definition eol_try (E : lenc) (rest : list N) : option bool :=
  if lpeek E rest =? leof E then Some true
  else match newline_try E rest with TOut => None | TNo => Some false | TYes _ => Some true end.

(** newline.hpp:48-64 [_eol::bp::finish], which is also [_eol::p::parse] (l.67-75). *)
Definition eol_parse (E : lenc) (rest : list N) : line_end :=
  if lpeek E rest =? leof E then LEof
  else match newline_try E rest with
       | TOut => LFuel
       | TNo => LError false
       | TYes n => LNewline n
       end.

(** ** Delimited *)

(** An escape (delimited.hpp:362-430): its token, and its branches.  A branch [br rest] says
    whether it is taken on [rest], and then how many units its rule consumes (whether or not
    the rule fails after being taken, l.398-403). *)
Record escape := Escape {
  es_token : list N -> option nat;
  es_branches : list (list N -> option nat)
}.

(** What delimited does, in order.  [DChars b e]: a token of the character class and the sink
    called with the lexeme (l.169-177); [DEscape]: the token of an escape; [DBranch i b e]:
    branch [i] of the escape ran over [b, e) and passed its values to the sink;
    [DBadEscape]: error invalid_escape_sequence; [DBadChar b e]: error of the character class at
    [b], and an error token [b, e) as recovery (l.35-50); [DMissing b e]: error
    missing_delimiter (or the one given to [limit]). *)
Inductive dev :=
| DChars (b e : nat)
| DEscape (b e : nat)
| DBranch (i : nat) (b e : nat)
| DBadEscape (b e : nat)
| DBadChar (b e : nat)
| DMissing (b e : nat).

(** delimited.hpp:169-177 [_del_chars::finish]. *)
Definition del_finish (begin_ end_ : nat) : list dev :=
  if (begin_ =? end_)%nat then [] else [DChars begin_ end_].

(** delimited.hpp:98-167 [_del_chars::parse_one]: the number of units consumed, and whether
    they are a character of the class. *)
Definition parse_one (E : lenc) (k : cclass) (rest : list N) : nat * bool :=
  if matcher (compress (class_ascii k)) (lpeek E rest) then (1%nat, true)        (* l.104-109 *)
  else if match_cp_false k then (1%nat, false)                                   (* l.153-166 *)
  else
    match E with
    | Enc e =>                                                                   (* l.113-135 *)
      let r := parse_code_point e rest in
      match cr_error r with
      | success => if match_cp k (cr_cp r) then (cr_end r, true)
                   else ((if (cr_end r =? 0)%nat then 1 else cr_end r)%nat, false)
      | _ => ((if (cr_end r =? 0)%nat then 1 else cr_end r)%nat, false)
      end
    | Default => (1%nat, match_cp k (lpeek E rest))                              (* l.137-151 *)
    end.

(** delimited.hpp:394-405: the first branch whose [try_parse] succeeds. *)
Fixpoint first_branch (i : nat) (brs : list (list N -> option nat)) (rest : list N)
  : option (nat * nat) :=
  match brs with
  | [] => None
  | br :: brs' =>
    match br rest with
    | Some n => Some (i, n)
    | None => first_branch (S i) brs' rest
    end
  end.

Section Del.
Variables (E : lenc) (inp : list N) (class : cclass).
Variable close : list N -> option nat.        (* the closing delimiter: units it matches *)
Variable limit : option (list N -> option nat).  (* the limit's character class *)
Variable skip : nat -> nat.                   (* the word loop, delimited.hpp:52-96 *)

(** delimited.hpp:180-201 [_del_limit::peek]. *)
Definition limit_peek (rest : list N) : bool :=
  match limit with
  | Some l => match l rest with Some _ => true | None => lpeek E rest =? leof E end
  | None => lpeek E rest =? leof E
  end.

(** delimited.hpp:377-419 [_escape::esc_try_parse], for the first escape whose token matches
    (fold expression at l.238): new position and what happened. *)
Fixpoint escape_try (escs : list escape) (begin_ pos : nat) : option (nat * list dev) :=
  match escs with
  | [] => None
  | x :: escs' =>
    match es_token x (skipn pos inp) with
    | None => escape_try escs' begin_ pos
    | Some n =>
      let pos1 := (pos + n)%nat in
      match first_branch 0 (es_branches x) (skipn pos1 inp) with
      | Some (i, m) =>
        Some ((pos1 + m)%nat,
              del_finish begin_ pos ++ [DEscape pos pos1; DBranch i pos1 (pos1 + m)])
      | None => Some (pos1, del_finish begin_ pos ++ [DEscape pos pos1; DBadEscape pos pos1])
      end
    end
  end.

(** Result of the loop: the closing delimiter is [b, e); or no closing delimiter up to [p]. *)
Inductive dres := DFuel | DClosed (evs : list dev) (b e : nat) | DFail (evs : list dev) (p : nat).
Definition dcons (evs : list dev) (r : dres) : dres :=
  match r with
  | DFuel => DFuel
  | DClosed evs' b e => DClosed (evs ++ evs') b e
  | DFail evs' p => DFail (evs ++ evs') p
  end.

(** delimited.hpp:209-250 [_del::_loop]; [start] is [del_begin], [begin_] is
    [cur_chars.begin]. *)
Fixpoint del_loop (fuel : nat) (escs : list escape) (start begin_ pos : nat) : dres :=
  match fuel with
  | O => DFuel
  | S fuel' =>
    let pos := skip pos in                                                       (* l.218 *)
    match close (skipn pos inp) with
    | Some n => DClosed (del_finish begin_ pos) pos (pos + n)                    (* l.221, 248 *)
    | None =>
      if limit_peek (skipn pos inp) then                                         (* l.226-235 *)
        DFail (del_finish begin_ pos ++ [DMissing start pos]) pos
      else
        match escape_try escs begin_ pos with                                    (* l.238-240 *)
        | Some (pos', evs) => dcons evs (del_loop fuel' escs start pos' pos')
        | None =>                                                                (* l.243 *)
          let '(n, ok) := parse_one E class (skipn pos inp) in
          let pos' := (pos + n)%nat in
          if ok then del_loop fuel' escs start begin_ pos'
          else dcons (del_finish begin_ pos ++ [DBadChar pos pos'])
                     (del_loop fuel' escs start pos' pos')
        end
    end
  end.
End Del.

(** delimited.hpp:252-278 [_del::p::parse] before the closing delimiter is finished. *)
Definition delimited (E : lenc) (inp : list N) (class : cclass) (close : list N -> option nat)
  (limit : option (list N -> option nat)) (escs : list escape) (skip : nat -> nat) (start : nat)
  : dres :=
  del_loop E inp class close limit skip (S (S (length inp - start))) escs start start start.

(** delimited.hpp:52-96 [_del_chars::parse_swar] on a buffer over [contents] (with its padding
    [mem]), for a closing literal and escape literals with the first units [close1] and [escs]
    ([lit_first_char], literal.hpp:338-343; for a case folded literal that is the unit as
    written, case_folding.hpp:31-35).  The filter of the class is the one of the ASCII class
    [k]. *)
Definition del_skip (w eofc close1 : N) (escs : list N) (k : ascii_class) (mem : list N) (pos : nat)
  : nat :=
  match swar_skip (S (length mem)) w (delimited_swar_filter w eofc close1 escs k) mem pos with
  | At p => p
  | _ => pos
  end.

(** A literal as the closing delimiter or escape token, plain (literal.hpp:350-363) or with
    ASCII case folding (case_folding.hpp:43-58). *)
Definition lit_token (E : lenc) (cs : list N) (rest : list N) : option nat :=
  let '(ok, n) := lit_try (raw E rest) cs 0%nat in if ok then Some n else None.
Definition folded_token (E : lenc) (cs : list N) (rest : list N) : option nat :=
  let '(ok, n) := cfl_ascii E rest cs 0%nat in if ok then Some n else None.
