(** The rule engine: how the parsers of lexy's rule combinators run.

    Sources: include/lexy/dsl/{base,token,sequence,branch,choice,if,option,loop,error,recover,
    production,whitespace,list,separator,terminator,brackets,peek,lookahead,times,repeat,
    combination,context_counter,context_flag,context_identifier,flags,return,position,capture,
    eof,parse_as,subgrammar,symbol}.hpp and include/lexy/action/base.hpp.

    In the C++ code a rule [R] has a parser template [R::p<NextParser>]; the parser for the rest
    of the grammar is a template argument, i.e. the code is written in continuation passing
    style, and branch rules have a class [R::bp] with [try_parse], [cancel] and [finish].
    The model keeps that structure.  A rule is a value of the type [rule] below;
    [e_parse E cx r k s args] models
      [parser_for<r, k>::parse(context, reader, args...)]
    and [e_try], [e_finish], [e_cancel] model the members of the branch parser.  The functions
    are tied together by fuel: [eng (S n) = step (eng n)]; running out of fuel is the separate
    result [NoFuel] (some C++ loops can run forever), a violated assertion or a grammar that
    does not compile is [Crash].

    Simplifications that apply throughout:
    - The input is a list of code units; a reader is a position in it, end of input is
      [pos = length inp].  (That readers really behave this way is the subject of the codec and
      buffer models; encodings whose eof marker is a valid unit are treated there.)
    - The input a token rule matches is an abstract function with the guarantee that it never
      moves backwards or past the end (the record [token]); the literal, character class, digit
      and identifier models give concrete instances.
    - Values are uninterpreted: a production's callback is the constructor [VProd], a sink
      collects its arguments ([VSink]).  Every production yields a value (no void callbacks).
    - [int] arithmetic of depth counters and context counters does not overflow. *)
From Verif Require Import Prelude.
Close Scope N_scope.

(** ** Tokens, events, values *)

(** Predefined token kinds, include/lexy/grammar.hpp:83-99 (the ones the engine itself uses) and
    user defined kinds, include/lexy/dsl/token.hpp:127. *)
Inductive tkind := KUnknown | KError | KWhitespace | KPosition | KEof | KIdentifier | KUser (n : nat).

(** Error tags: the ones reported by the engine, and those of tokens/user errors. *)
Inductive etag :=
| TUser (n : nat)
| TExhausted            (* choice.hpp:13-21 *)
| TMissing              (* missing_token, token.hpp *)
| TPeek | TUnexpected | TLook  (* peek.hpp, lookahead.hpp *)
| TDepth                (* max_recursion_depth_exceeded, production.hpp:131-139 *)
| TTrailing             (* unexpected_trailing_separator, separator.hpp *)
| TEof                  (* expected_eof, eof.hpp *)
| TDup                  (* combination_duplicate *)
| TFlag                 (* duplicate_flag *)
| TCounts               (* unequal_counts *)
| TIdent                (* different_identifier *)
| TSymbol.              (* unknown_symbol *)

(** A token rule as the engine sees it, include/lexy/dsl/token.hpp:30-115: the result and [end]
    of [tp::try_parse], and the error of [tp::report_error].  The two guarantees are what a
    [Reader] gives: a reader only moves forward and stops at the end of the input. *)
Record token := Token {
  tk_kind : tkind;
  tk_try : list N -> nat -> bool * nat;
  tk_err : list N -> nat -> etag * nat * nat;
  tk_try_ok : forall inp p, p <= length inp ->
    p <= snd (tk_try inp p) <= length inp;
  tk_err_ok : forall inp p, p <= length inp ->
    let '(_, b, e) := tk_err inp p in p <= b <= e /\ e <= length inp
}.

(** The trie matcher of [find] and [lookahead], lookahead.hpp:25-45, literal.hpp:240-318:
    [Some (true, e)] a needle was matched, [Some (false, e)] a limit was matched, [None] nothing
    matches here and the reader is where it was. *)
Record finder := Finder {
  fd_try : list N -> nat -> option (bool * nat);
  fd_ok : forall inp p b e, p <= length inp -> fd_try inp p = Some (b, e) -> p <= e <= length inp
}.

(** Parse events, include/lexy/dsl/base.hpp:12-86.  Operation events belong to expression
    productions, see [ExprModel]. *)
Inductive event :=
| EGStart (p : nat) | EGFinish (p : nat) | EGCancel (p : nat)
| EPStart (prod p : nat) | EPFinish (prod p : nat) | EPCancel (prod p : nat)
| EToken (k : tkind) (b e : nat)
| EBack (b e : nat)
| EError (t : etag) (b e : nat)
| ERStart (p : nat) | ERFinish (p : nat) | ERCancel (p : nat).

Inductive val :=
| VLex (b e : nat)            (* lexeme *)
| VPos (p : nat)              (* position *)
| VNull                       (* nullopt *)
| VBool (b : bool)
| VInt (z : Z)
| VProd (p : nat) (vs : list val)     (* result of the production's callback *)
| VSink (items : list (list val))     (* result of the production's sink *)
| VAs (vs : list val).                (* result of parse_as *)

(** ** Rules *)

(** What a separator does about a trailing one: [_sep], [_tsep], [_isep], separator.hpp:68-127. *)
Inductive sepk := SErr (t : etag) | STrail | SIgnore.

Inductive repm := RepDiscard | RepList | RepCapture.

Inductive rule :=
| RTok (t : token)                                  (* any token rule *)
| RTokOf (k : tkind) (r : rule)                     (* token(rule), token.hpp:175-211 *)
| RSeq (rs : list rule)                             (* a + b, sequence.hpp:11-100 *)
| RBr (c : rule) (rs : list rule)                   (* c >> r..., branch.hpp:12-27 *)
| RElse                                             (* else_, branch.hpp:115-122 *)
| RChc (rs : list rule)                             (* a | b, choice.hpp:24-132 *)
| RIf (b : rule)                                    (* if_, if.hpp:12-33 *)
| ROpt (b : rule)                                   (* opt, option.hpp:55-76 *)
| ROptT (term r : rule)                             (* option.hpp:94-116 *)
| RErr (t : etag) (r : option rule)                 (* error, error.hpp:21-61 *)
| RMust (b : rule) (t : etag) (r : option rule)     (* must, error.hpp:70-96 *)
| RBreak                                            (* break_, loop.hpp:12-27 *)
| RLoop (r : rule)                                  (* loop, loop.hpp:35-59 *)
| RWhile (b : rule)                                 (* while_, loop.hpp:71-91 *)
| RLst (item : rule) (sep : option (rule * sepk))   (* list, list.hpp:14-129 *)
| RLstT (term item : rule) (sep : option (rule * sepk)) (limit : token)  (* list.hpp:165-444 *)
| RNSep (b : rule) (t : etag)                       (* separator.hpp:25-66 *)
| RFind (f : finder)                                (* find, recover.hpp:63-107 *)
| RReco (limit : token) (bs : list rule)            (* recover, recover.hpp:142-183 *)
| RRecW (r : option rule)                           (* recover.hpp:19-58 *)
| RTryT (term : option rule) (r : rule) (rec : option rule) (* recover.hpp:217-281 *)
| RTry (r : rule) (rec : option rule)               (* try_ as a branch, recover.hpp:283-326 *)
| RProd (p : nat)                                   (* p, production.hpp:35-123 *)
| RRec (p : nat) (t : etag)                         (* recurse, production.hpp:228-236 *)
| RRecB (p : nat) (t : etag)                        (* recurse_branch, production.hpp:143-226 *)
| RWs (r : rule)                                    (* whitespace(), whitespace.hpp:197-225 *)
| RNoWs (r : rule)                                  (* no_whitespace(), whitespace.hpp:237-305 *)
| RPeek (r : rule) (t : etag)                       (* peek, peek.hpp:33-92 *)
| RPeekN (r : rule) (t : etag)                      (* peek_not, peek.hpp:94-161 *)
| RLook (f : finder) (t : etag)                     (* lookahead, lookahead.hpp:47-126 *)
| RRep (m : repm) (count item : rule) (sep : option (rule * sepk))  (* repeat.hpp:74-130 *)
| RComb (dup : etag) (els : option rule) (rs : list rule)  (* combination.hpp:63-118 *)
| RCombIt (i : nat)                                 (* combination.hpp:41-61 *)
| RFlags (r : rule) (d : Z) (t : etag)              (* flags, flags.hpp:26-80 *)
| RFlag (r : rule) (a b : Z)                        (* flag, flags.hpp:105-124 *)
| RCtxNew (id : nat) (v : val)                      (* create() of a context variable *)
| RCtxAdd (id : nat) (z : Z)                        (* inc()/dec(), context_counter.hpp:46-59 *)
| RCtxPush (id : nat) (sign : Z) (r : rule)         (* push()/pop(), context_counter.hpp:61-117 *)
| RCtxSet (id : nat) (b : bool)                     (* set()/reset(), context_flag.hpp:33-46 *)
| RCtxToggle (id : nat)                             (* toggle(), context_flag.hpp:48-62 *)
| RCtxIs (id : nat) (v : val)                       (* is<>(), context_counter.hpp:119-144 *)
| RCtxVal (id : nat)                                (* value(), context_counter.hpp:146-159 *)
| RCtxEq (id : nat) (ids : list nat)                (* equal_counts, context_counter.hpp:161-204 *)
| RCtxCap (id : nat) (t : rule)                     (* capture(), context_identifier.hpp:45-63 *)
| RCtxRem (id : nat) (t : rule) (tag : etag)        (* rematch(), context_identifier.hpp:65-145 *)
| RRet                                              (* return_, return.hpp:12-17 *)
| RPos                                              (* position, position.hpp:11-24 *)
| RPosR (r : rule)                                  (* position(rule), position.hpp:26-67 *)
| RCap (t : rule)                                   (* capture(token), capture.hpp:13-63 *)
| RCapR (r : rule)                                  (* capture(rule), capture.hpp:65-120 *)
| REof                                              (* eof, eof.hpp:23-69 *)
| RPas (r : rule)                                   (* parse_as, parse_as.hpp:62-142 *)
| RSym (t : rule) (f : list N -> option Z) (tag : etag)  (* symbol(token), symbol.hpp:263-341 *)
| RSub (p : nat).                                   (* subgrammar, subgrammar.hpp:60-100 *)

(** A production, include/lexy/grammar.hpp:101-241: its rule, whether it is a token production,
    the whitespace it defines, whether [p<P>] is a branch rule (the C++ code computes that from
    the rule; see [is_branch]), and its [max_recursion_depth]. *)
Record production := Production {
  p_rule : rule;
  p_token : bool;
  p_ws : option rule;
  p_branch : bool;
  p_max : nat
}.

(** ** Interpreter state *)

(** What the parsers mutate: the reader's position, the fields of the control block
    (action/base.hpp:66-103) and the event handler, here a trace (newest event first).
    Context variables live in a linked list, newest first (action/base.hpp:19-63). *)
Record st := St {
  pos : nat;
  depth : nat;
  wsf : bool;                     (* enable_whitespace_skipping *)
  vars : list (nat * val);
  trace : list event
}.

(** What is fixed inside one production: the whitespace rule in force
    (production_whitespace, grammar.hpp:226-241, and _pc::whitespace_production,
    action/base.hpp:116-146), and the control block's max_depth. *)
Record cx := Cx { cx_ws : option rule; cx_max : nat }.

(** Result of a parser: [OTrue vs] — a terminal continuation (final, sink or pattern parser) was
    reached with the arguments [vs]; [OItem i vs] — the end of item [i] of a combination was
    reached; [OBreak] — true, with loop_break set; [OFalse].
    The number in [Res] stands for the local flags [continuation_reached] and
    [recovery_finished] of the active try_ and recovery frames (recover.hpp:32,269,307), which
    the C++ code passes down by reference: it counts how many of the enclosing flags have been
    set, innermost first.  (A frame's continuation contains the continuations of all enclosing
    frames, so flags get set from the inside out.) *)
Inductive out := OFalse | OTrue (vs : list val) | OItem (i : nat) (vs : list val) | OBreak.
Inductive res := Res (o : out) (s : st) (m : nat) | NoFuel | Crash.

(** A continuation (NextParser).  [k_nows]: whether its type inherits from
    disable_whitespace_skipping, whitespace.hpp:170-172. *)
Record cont := Cont { k_nows : bool; k_fn : st -> list val -> res }.

(** The data members of a branch parser object.  [BNone] is a value-initialised one. *)
Inductive bst :=
| BNone
| BEnd (e : nat)                    (* token-like: [end] *)
| BRange (b e : nat)                (* peek, lookahead: [begin], [end] *)
| BAt (p : nat) (b : bst)           (* production: [begin] and the rule's parser *)
| BChc (i : nat) (bs : list bst).   (* choice: [branch_idx] and the alternatives' parsers *)

Inductive tres := TR (ok : bool) (e : nat) | TNoFuel | TCrash.
Inductive bres := BR (ok : bool) (b : bst) | BNoFuel | BCrash.

(** States of the list-with-terminator loop, list.hpp:176-183; [LSearch b] is the inner loop of
    the recovery state that began at [b]. *)
Inductive lstate := LTerm | LSep | LTrail | LItem | LRecovery | LSearch (b : nat).

Record engine := Engine {
  e_parse : cx -> rule -> cont -> st -> list val -> res;
  e_try : rule -> list (nat * val) -> nat -> bres;
  e_finish : cx -> rule -> bst -> cont -> st -> list val -> res;
  e_cancel : rule -> bst -> option (list event);      (* oldest event first *)
  e_wsloop : rule -> nat -> tres;
  e_lst : cx -> rule -> option (rule * sepk) -> st -> list (list val) -> res;
  e_lstt : cx -> rule -> rule -> option (rule * sepk) -> token -> lstate -> nat -> st ->
           list (list val) -> res;
  e_reco : cx -> token -> rule -> nat -> cont -> st -> list val -> res;
  e_comb : cx -> etag -> rule -> nat -> nat -> list bool -> st -> list (list val) -> res;
  e_flags : cx -> rule -> etag -> Z -> st -> res
}.

(** ** Small helpers *)

Definition emit (e : event) (s : st) : st := St (pos s) (depth s) (wsf s) (vars s) (e :: trace s).
Definition emits (es : list event) (s : st) : st :=
  St (pos s) (depth s) (wsf s) (vars s) (rev es ++ trace s).
Definition setpos (p : nat) (s : st) : st := St p (depth s) (wsf s) (vars s) (trace s).
Definition setdepth (d : nat) (s : st) : st := St (pos s) d (wsf s) (vars s) (trace s).
Definition setwsf (b : bool) (s : st) : st := St (pos s) (depth s) b (vars s) (trace s).
Definition setvars (v : list (nat * val)) (s : st) : st := St (pos s) (depth s) (wsf s) v (trace s).

(** [sink(args...)] is only called with at least one argument: sink_parser, base.hpp:184-195. *)
Definition push (vs : list val) (acc : list (list val)) : list (list val) :=
  match vs with [] => acc | _ => acc ++ [vs] end.

(** parse_context_var::get, action/base.hpp:54-63. *)
Fixpoint vget (id : nat) (vs : list (nat * val)) : option val :=
  match vs with
  | [] => None
  | (i, v) :: vs => if i =? id then Some v else vget id vs
  end.

(** Assignment through the reference returned by [get]. *)
Fixpoint vset (id : nat) (v : val) (vs : list (nat * val)) : list (nat * val) :=
  match vs with
  | [] => []
  | (i, w) :: vs => if i =? id then (i, v) :: vs else (i, w) :: vset id v vs
  end.

(** parse_context_var_base::unlink, action/base.hpp:36-40: [next] of a variable linked when the
    list had [n] elements is the list of the [n] oldest ones. *)
Definition unlink (n : nat) (s : st) : st := setvars (skipn (length (vars s) - n) (vars s)) s.

Definition is_err (e : event) : bool := match e with EError _ _ _ => true | _ => false end.

(** The arguments' code units, lexeme.hpp. *)
Definition slice (inp : list N) (b e : nat) : list N := firstn (e - b) (skipn b inp).

Fixpoint eqb_list (a b : list N) : bool :=
  match a, b with
  | [], [] => true
  | x :: a, y :: b => N.eqb x y && eqb_list a b
  | _, _ => false
  end.

(** Equality of the values of counters and flags (context_counter.hpp:128, context_flag.hpp:73). *)
Definition val_eqb (a b : val) : bool :=
  match a, b with
  | VInt x, VInt y => Z.eqb x y
  | VBool x, VBool y => Bool.eqb x y
  | _, _ => false
  end.

(** [construct<std::size_t>] of the values of the count rule: repeat.hpp:130, parse_as.hpp. *)
Fixpoint val_count (v : val) : option nat :=
  match v with
  | VInt z => if (z <? 0)%Z then None else Some (Z.to_nat z)
  | VProd _ [w] => val_count w
  | VAs [w] => val_count w
  | _ => None
  end.

Definition count_of (vs : list val) : option nat :=
  match vs with [v] => val_count v | _ => None end.

(** [operator|], choice.hpp:134-160. *)
Definition chc_or (a b : rule) : rule :=
  match a with RChc l => RChc (l ++ [b]) | _ => RChc [a; b] end.

(** final_parser (action/base.hpp:165-173), sink_parser and pattern_parser (base.hpp:170-195). *)
Definition final : cont := Cont false (fun s vs => Res (OTrue vs) s 0).

Definition token_rule (r : rule) : bool :=
  match r with RTok _ | RTokOf _ _ => true | _ => false end.

Definition strip_ws (r : rule) : rule := match r with RWs r => r | _ => r end.

(** Result of a nested, delimited parser call: a [false] is passed on; [break_] and the end of a
    combination item cannot appear here (does not compile in C++). *)
Definition delim (r : res) (ok : st -> list val -> res) : res :=
  match r with
  | Res (OTrue vs) s _ => ok s vs
  | Res OFalse s _ => Res OFalse s 0
  | Res _ _ _ => Crash
  | NoFuel => NoFuel
  | Crash => Crash
  end.

(** Setting a [continuation_reached]/[recovery_finished] flag on the way to the continuation. *)
Definition mark (r : res) : res :=
  match r with Res o s m => Res o s (S m) | r => r end.

(** Rules whose parser template is an alias of the continuation ([using p = NextParser]):
    branch.hpp:118-119, context_counter.hpp:142-143, context_flag.hpp:87-88, sequences of those.
    The parser for such a rule inherits from disable_whitespace_skipping if the continuation
    does. *)
Fixpoint alias (r : rule) : bool :=
  match r with
  | RElse | RCtxIs _ _ => true
  | RSeq rs => forallb alias rs
  | RBr c rs => alias c && forallb alias rs
  | _ => false
  end.

(** lexy::is_unconditional_branch_rule. *)
Fixpoint unconditional (r : rule) : bool :=
  match r with
  | RElse | RBreak | RErr _ _ => true
  | RBr c _ => unconditional c
  | _ => false
  end.

Section Engine.
Variable inp : list N.
Variable prods : nat -> production.

(** lexy::is_branch_rule: the base class of each rule struct. *)
Fixpoint is_branch (r : rule) : bool :=
  match r with
  | RTok _ | RTokOf _ _ | RElse | RBreak | RErr _ _ | RMust _ _ _ | RRecB _ _
  | RPeek _ _ | RPeekN _ _ | RLook _ _ | RCtxIs _ _ | RCtxEq _ _ | RCtxCap _ _ | RCtxRem _ _ _
  | RCap _ | REof | RSym _ _ _ | RBr _ _ => true
  | RChc rs => negb (existsb unconditional rs)
  | RLst i _ => is_branch i
  | RTry r _ | RNoWs r | RCtxPush _ _ r | RPosR r | RCapR r | RPas r => is_branch r
  | RRep _ c _ _ => is_branch c
  | RProd p => p_branch (prods p)
  | _ => false
  end.

(** The iterator of a value-initialised branch parser: a null pointer, here a number that is
    not a position of the input. *)
Definition null_pos : nat := S (length inp).

Definition b_end (b : bst) : nat := match b with BEnd e => e | _ => null_pos end.
Definition b_range (b : bst) : nat * nat := match b with BRange b e => (b, e) | _ => (null_pos, null_pos) end.
Definition b_at (b : bst) : nat := match b with BAt p _ => p | _ => null_pos end.
Definition b_in (b : bst) : bst := match b with BAt _ b => b | _ => BNone end.
Definition b_alts (b : bst) : list bst := match b with BChc _ bs => bs | _ => [] end.

Definition eof (p : nat) : bool := length inp <=? p.

(** The search loops of find (recover.hpp:78-101) and lookahead (lookahead.hpp:67-80).
    [n] is the number of units left.  Result: found?, start and end of the last match attempt. *)
Fixpoint search (f : finder) (n p : nat) : bool * nat * nat :=
  match fd_try f inp p with
  | Some (true, e) => (true, p, e)
  | Some (false, e) => (false, p, e)
  | None => match n with O => (false, p, p) | S n => search f n (S p) end
  end.
Definition search_from (f : finder) (p : nat) := search f (length inp - p) p.

Section Step.
Variable E : engine.

(** A control block of its own: do_action, action/base.hpp:227-248, as used by
    token(rule) (token.hpp:175-211), whitespace (whitespace.hpp:24-34) and error rules
    (error.hpp:14-19).  Those productions have max_recursion_depth 0 and define no whitespace. *)
Definition sub_cx : cx := Cx None 0.
Definition sub_st (p : nat) : st := St p 0 true [] [].

(** token_parser_for<token(r)>::try_parse: a token rule itself, or the dummy production of
    token(r), token.hpp:175-211; the handler is [_mh], match.hpp:9-43: success means the rule
    succeeded and there was no error event. *)
Definition run_token (r : rule) (p : nat) : tres :=
  match e_parse E sub_cx r final (sub_st p) [] with
  | Res (OTrue _) s _ => TR (negb (existsb is_err (trace s))) (pos s)
  | Res OFalse s _ => TR false (pos s)
  | Res _ _ _ => TCrash
  | NoFuel => TNoFuel
  | Crash => TCrash
  end.

Definition tmatch (r : rule) (p : nat) : tres :=
  match r with
  | RTok t => TR (fst (tk_try t inp p)) (snd (tk_try t inp p))
  | RTokOf _ r => run_token r p
  | r => run_token r p
  end.

Definition tkind_of (r : rule) : tkind :=
  match r with RTok t => tk_kind t | RTokOf k _ => k | _ => KUnknown end.

(** report_error: a token's own error, or missing_token (token.hpp:198-203). *)
Definition terror (r : rule) (p e : nat) : event :=
  match r with
  | RTok t => let '(t, b, e) := tk_err t inp p in EError t b e
  | _ => EError TMissing p e
  end.

(** token_base::token_parse, token.hpp:73-101. *)
Definition token_parse (r : rule) (s : st) (ok : nat -> st -> res) : res :=
  match tmatch r (pos s) with
  | TR true e => ok e (setpos e (emit (EToken (tkind_of r) (pos s) e) s))
  | TR false e =>
      Res OFalse (setpos e (emit (terror r (pos s) e) (emit (EToken KError (pos s) e) s))) 0
  | TNoFuel => NoFuel
  | TCrash => Crash
  end.

(** skip_whitespace, whitespace.hpp:111-168.  The SWAR skipping of spaces is not modelled: it
    only runs when a space is matched by the rule.  The rule run by ws_production is
    loop(rule | break_) (whitespace.hpp:24-34); only its errors are forwarded (38-97). *)
Definition wsloop_step (w : rule) (p : nat) : tres :=
  match tmatch w p with
  | TR true e => e_wsloop E w e
  | TR false _ => TR true p
  | r => r
  end.

Definition skip_ws (w : rule) (s : st) (ok : st -> res) : res :=
  let w := strip_ws w in
  if token_rule w then
    match e_wsloop E w (pos s) with
    | TR _ e => ok (setpos e (emit (EToken KWhitespace (pos s) e) s))
    | TNoFuel => NoFuel
    | TCrash => Crash
    end
  else
    match e_parse E sub_cx (RLoop (chc_or w RBreak)) final (sub_st (pos s)) [] with
    | Res OFalse t _ =>
        Res OFalse (setpos (pos t) (emit (EToken KError (pos s) (pos t))
                                         (emits (rev (filter is_err (trace t))) s))) 0
    | Res (OTrue _) t _ =>
        ok (setpos (pos t) (emit (EToken KWhitespace (pos s) (pos t))
                                 (emits (rev (filter is_err (trace t))) s)))
    | Res _ _ _ => Crash
    | NoFuel => NoFuel
    | Crash => Crash
    end.

(** whitespace_parser<Context, Next>, base.hpp:224-236, and automatic_ws_parser,
    whitespace.hpp:174-191. *)
Definition ws_then (c : cx) (k : cont) (s : st) (args : list val) : res :=
  match cx_ws c with
  | None => k_fn k s args
  | Some w =>
      if k_nows k || negb (wsf s) then k_fn k s args
      else skip_ws w s (fun s => k_fn k s args)
  end.

(** A parsed token followed by whitespace: token_base::bp::finish (token.hpp:62-70). *)
Definition tok_finish (c : cx) (kd : tkind) (e : nat) (k : cont) (s : st) (args : list val) : res :=
  ws_then c k (setpos e (emit (EToken kd (pos s) e) s)) args.

(** Cancelling a branch parser only emits events; no [cancel] touches the control block. *)
Definition cancel_then (r : rule) (b : bst) (s : st) (ok : st -> res) : res :=
  match e_cancel E r b with
  | Some es => ok (emits es s)
  | None => NoFuel
  end.

(** [if (bp.try_parse(...)) return bp.finish<k>(...); bp.cancel(context); else...]:
    the pattern of if_, opt, must, ... *)
Definition branch_or (c : cx) (b : rule) (k : cont) (s : st) (args : list val)
    (other : st -> res) : res :=
  match e_try E b (vars s) (pos s) with
  | BR true bs => e_finish E c b bs k s args
  | BR false bs => cancel_then b bs s other
  | BNoFuel => NoFuel
  | BCrash => Crash
  end.

(** _seq_impl, sequence.hpp:11-91: parser_for<R1, parser_for<R2, ... NextParser>>. *)
Fixpoint seq_cont (c : cx) (rs : list rule) (k : cont) : cont :=
  match rs with
  | [] => k
  | r :: rs =>
      let k := seq_cont c rs k in Cont (alias r && k_nows k) (e_parse E c r k)
  end.

Definition p_seq (c : cx) (rs : list rule) (k : cont) (s : st) (args : list val) : res :=
  k_fn (seq_cont c rs k) s args.

(** _chc::p::parse, choice.hpp:94-131. *)
Fixpoint p_chc (c : cx) (uncond : bool) (rs : list rule) (k : cont) (s : st) (args : list val) : res :=
  match rs with
  | [] => if uncond then Crash else Res OFalse (emit (EError TExhausted (pos s) (pos s)) s) 0
  | r :: rs => branch_or c r k s args (fun s => p_chc c uncond rs k s args)
  end.

(** _chc::bp::try_parse, choice.hpp:45-68.  Alternatives after the selected one stay
    value-initialised. *)
Fixpoint t_chc (rs : list rule) (i : nat) (vs : list (nat * val)) (p : nat) : bres :=
  match rs with
  | [] => BR false (BChc i [])
  | r :: rs =>
      match e_try E r vs p with
      | BR true b => BR true (BChc i [b])
      | BR false b =>
          match t_chc rs (S i) vs p with
          | BR ok (BChc j bs) => BR ok (BChc j (b :: bs))
          | x => x
          end
      | x => x
      end
  end.

(** _chc::bp::cancel, choice.hpp:71-75: every alternative, tried or not. *)
Fixpoint c_chc (rs : list rule) (bs : list bst) : option (list event) :=
  match rs with
  | [] => Some []
  | r :: rs =>
      match e_cancel E r (hd BNone bs), c_chc rs (tl bs) with
      | Some a, Some b => Some (a ++ b)
      | _, _ => None
      end
  end.

(** _chc::bp::finish, choice.hpp:78-90. *)
Fixpoint f_chc (c : cx) (rs : list rule) (i : nat) (bs : list bst) (k : cont) (s : st)
    (args : list val) : res :=
  match rs, i with
  | [], _ => Crash
  | r :: _, O => e_finish E c r (hd BNone bs) k s args
  | r :: rs, S i => cancel_then r (hd BNone bs) s (fun s => f_chc c rs i (tl bs) k s args)
  end.

(** _err::p::parse, error.hpp:27-53. *)
Definition p_err (t : etag) (r : option rule) (s : st) : res :=
  match r with
  | None => Res OFalse (emit (EError t (pos s) (pos s)) s) 0
  | Some r =>
      match run_token r (pos s) with
      | TR _ e => Res OFalse (emit (EError t (pos s) e) s) 0
      | TNoFuel => NoFuel
      | TCrash => Crash
      end
  end.

(** Sep::report_trailing_error, separator.hpp:68-127. *)
Definition report_trailing (k : sepk) (b e : nat) (s : st) : st :=
  match k with SErr t => emit (EError t b e) s | _ => s end.

(** Sep::trailing_rule *)
Definition trailing_rule (sep : rule * sepk) : rule :=
  match snd sep with SErr t => RNSep (fst sep) t | STrail => RIf (fst sep) | SIgnore => RElse end.

(** _lst::_loop, list.hpp:17-67; the result is the filled sink. *)
Definition lst_item (c : cx) (item : rule) (sep : option (rule * sepk)) (sb : nat) (s : st)
    (acc : list (list val)) : res :=
  if is_branch item then
    match e_try E item (vars s) (pos s) with
    | BR true b => delim (e_finish E c item b final s []) (fun s v => e_lst E c item sep s (push v acc))
    | BR false b =>
        cancel_then item b s (fun s' =>
          Res (OTrue [VSink acc])
              (match sep with Some (_, k) => report_trailing k sb (pos s) s' | None => s' end) 0)
    | BNoFuel => NoFuel
    | BCrash => Crash
    end
  else delim (e_parse E c item final s []) (fun s v => e_lst E c item sep s (push v acc)).

Definition lst_step (c : cx) (item : rule) (sep : option (rule * sepk)) (s : st)
    (acc : list (list val)) : res :=
  match sep with
  | None => lst_item c item sep (pos s) s acc
  | Some (sr, _) =>
      match e_try E sr (vars s) (pos s) with
      | BR true b =>
          delim (e_finish E c sr b final s []) (fun s' v => lst_item c item sep (pos s) s' (push v acc))
      | BR false b => cancel_then sr b s (fun s' => Res (OTrue [VSink acc]) s' 0)
      | BNoFuel => NoFuel
      | BCrash => Crash
      end
  end.

(** sink_finish_parser, base.hpp:197-214. *)
Definition sink_finish (k : cont) (args : list val) (s : st) (v : list val) : res :=
  k_fn k s (args ++ v).

(** In the list with terminator a failed parser leads to another state instead of failure. *)
Definition orelse (r : res) (ok : st -> list val -> res) (no : st -> res) : res :=
  match r with
  | Res (OTrue vs) s _ => ok s vs
  | Res OFalse s _ => no s
  | Res _ _ _ => Crash
  | NoFuel => NoFuel
  | Crash => Crash
  end.

(** One iteration of _lstt::_loop, list.hpp:185-411.  The result [OTrue [VSink acc]] means that
    the terminator's try_parse succeeded at the final position. *)
Definition lstt_recovered (b : nat) (s : st) : st :=
  emit (ERFinish (pos s)) (emit (EToken KError b (pos s)) s).

Definition lstt_limit (c : cx) (term item : rule) (sep : option (rule * sepk)) (lim : token)
    (b sp : nat) (s : st) (acc : list (list val)) : res :=
  (* list.hpp:375-397 *)
  match e_try E term (vars s) (pos s) with
  | BR true _ => Res (OTrue [VSink acc]) (lstt_recovered b s) 0
  | BR false tb =>
      cancel_then term tb s (fun s =>
        if fst (tk_try lim inp (pos s)) || eof (pos s)
        then Res OFalse (emit (ERCancel (pos s)) (emit (EToken KError b (pos s)) s)) 0
        else e_lstt E c term item sep lim (LSearch b) sp (setpos (S (pos s)) s) acc)
  | BNoFuel => NoFuel
  | BCrash => Crash
  end.

Definition lstt_step (c : cx) (term item : rule) (sep : option (rule * sepk)) (lim : token)
    (ls : lstate) (sp : nat) (s : st) (acc : list (list val)) : res :=
  let go := e_lstt E c term item sep lim in
  match ls with
  | LTerm => (* list.hpp:196-204 *)
      match e_try E term (vars s) (pos s) with
      | BR true _ => Res (OTrue [VSink acc]) s 0
      | BR false b => cancel_then term b s (fun s => go LSep sp s acc)
      | BNoFuel => NoFuel
      | BCrash => Crash
      end
  | LSep => (* list.hpp:206-265 *)
      match sep with
      | None => go LItem sp s acc
      | Some (sr, _) =>
          orelse (e_parse E c sr final s [])
            (fun s' v => go LTrail (pos s) s' (push v acc))
            (fun s' =>
               if pos s =? pos s' then
                 if is_branch item then
                   match e_try E item (vars s') (pos s') with
                   | BR true b =>
                       orelse (e_finish E c item b final s' [])
                         (fun s2 v => go LTerm (pos s) s2 (push v acc))
                         (fun s2 => cancel_then item b s2 (fun s2 => go LRecovery (pos s) s2 acc))
                   | BR false b => cancel_then item b s' (fun s' => go LRecovery (pos s) s' acc)
                   | BNoFuel => NoFuel
                   | BCrash => Crash
                   end
                 else go LRecovery (pos s) s' acc
               else go LRecovery (pos s) s' acc)
      end
  | LTrail => (* list.hpp:267-286 *)
      match sep with
      | None => Crash
      | Some (_, k) =>
          match e_try E term (vars s) (pos s) with
          | BR true _ => Res (OTrue [VSink acc]) (report_trailing k sp (pos s) s) 0
          | BR false _ => go LItem sp s acc
          | BNoFuel => NoFuel
          | BCrash => Crash
          end
      end
  | LItem => (* list.hpp:288-300 *)
      orelse (e_parse E c item final s [])
        (fun s v => go LTerm sp s (push v acc))
        (fun s => go LRecovery sp s acc)
  | LRecovery => (* list.hpp:302-304 *)
      go (LSearch (pos s)) sp (emit (ERStart (pos s)) s) acc
  | LSearch b =>
      match sep with
      | Some (sr, _) => (* list.hpp:307-337 *)
          match e_try E sr (vars s) (pos s) with
          | BR true sb =>
              orelse (e_finish E c sr sb final (lstt_recovered b s) [])
                (fun s' v => go LTrail (pos s) s' (push v acc))
                (fun s' => go LRecovery (pos s) s' acc)
          | BR false sb =>
              cancel_then sr sb s (fun s => lstt_limit c term item sep lim b (pos s) s acc)
          | BNoFuel => NoFuel
          | BCrash => Crash
          end
      | None => (* list.hpp:338-371 *)
          if is_branch item then
            match e_try E item (vars s) (pos s) with
            | BR true ib =>
                orelse (e_finish E c item ib final (lstt_recovered b s) [])
                  (fun s' v => go LTerm sp s' (push v acc))
                  (fun s' => go LRecovery sp s' acc)
            | BR false ib => cancel_then item ib s (fun s => lstt_limit c term item sep lim b sp s acc)
            | BNoFuel => NoFuel
            | BCrash => Crash
            end
          else lstt_limit c term item sep lim b sp s acc
      end
  end.

(** _lstt::p::parse, list.hpp:414-443.  The terminator's branch parser still holds the result of
    the last try_parse, which ran at the current position with the current variables; the model
    runs that (pure) try_parse again. *)
Definition p_lstt (c : cx) (term item : rule) (sep : option (rule * sepk)) (lim : token)
    (k : cont) (s : st) (args : list val) : res :=
  let fin (s : st) (v : list val) :=
    match e_try E term (vars s) (pos s) with
    | BR true b => e_finish E c term b k s (args ++ v)
    | BR false _ => Crash
    | BNoFuel => NoFuel
    | BCrash => Crash
    end in
  orelse (e_parse E c item final s [])
    (fun s1 v => delim (e_lstt E c term item sep lim LTerm (pos s1) s1 (push v [])) fin)
    (fun s1 => delim (e_lstt E c term item sep lim LRecovery (pos s1) s1 []) fin).

(** _nsep::p::parse, separator.hpp:44-63. *)
Definition p_nsep (c : cx) (b : rule) (t : etag) (k : cont) (s : st) (args : list val) : res :=
  branch_or c b
    (Cont false (fun s' a => k_fn k (emit (EError t (pos s) (pos s')) s') a))
    s args (fun s => k_fn k s args).

(** _find::p::parse, recover.hpp:68-104. *)
Definition p_find (f : finder) (k : cont) (s : st) (args : list val) : res :=
  let s1 := emit (ERStart (pos s)) s in
  let '(found, b, _) := search_from f (pos s) in
  if found
  then k_fn k (setpos b (emit (ERFinish b) (emit (EToken KError (pos s) b) s1))) args
  else Res OFalse (setpos b (emit (ERCancel b) (emit (EToken KError (pos s) b) s1))) 0.

(** The loop of _reco::p::parse, recover.hpp:147-182; [b] is where it started. *)
Definition reco_step (c : cx) (lim : token) (alts : rule) (b : nat) (k : cont) (s : st)
    (args : list val) : res :=
  match e_try E alts (vars s) (pos s) with
  | BR true bs =>
      e_finish E c alts bs k (emit (ERFinish (pos s)) (emit (EToken KError b (pos s)) s)) args
  | BR false bs =>
      cancel_then alts bs s (fun s =>
        if fst (tk_try lim inp (pos s)) || eof (pos s)
        then Res OFalse (emit (ERCancel (pos s)) (emit (EToken KError b (pos s)) s)) 0
        else e_reco E c lim alts b k (setpos (S (pos s)) s) args)
  | BNoFuel => NoFuel
  | BCrash => Crash
  end.

(** [(R{} | ...)]: a single branch stays itself. *)
Definition alts_of (bs : list rule) : rule := match bs with [b] => b | _ => RChc bs end.

(** _recovery_wrapper::p::parse, recover.hpp:22-51. *)
Definition p_recw (c : cx) (r : option rule) (k : cont) (s : st) (args : list val) : res :=
  let cont :=
    Cont false (fun s a => mark (k_fn k (emit (ERFinish (pos s)) s) a)) in
  let wsk := Cont false (fun s a => ws_then c cont s a) in
  let s1 := emit (ERStart (pos s)) s in
  let result := match r with None => k_fn wsk s1 args | Some r => e_parse E c r wsk s1 args end in
  match result with
  | Res o s m =>
      match m with
      | S m => Res o s m
      | O => Res o (emit (ERCancel (pos s)) s) 0
      end
  | x => x
  end.

(** _tryt::_pc::recover, recover.hpp:237-258. *)
Definition try_recover (c : cx) (rec : option rule) (k : cont) (s : st) (args : list val) : res :=
  match rec with
  | Some (RFind f) => e_parse E c (RFind f) k s args
  | Some (RReco l bs) => e_parse E c (RReco l bs) k s args
  | rec => e_parse E c (RRecW rec) k s args
  end.

(** recover.hpp:268-279 and 305-320: what happens after the rule's parser returned. *)
Definition try_after (c : cx) (rec : option rule) (k : cont) (args : list val) (result : res) : res :=
  match result with
  | Res o s (S m) => Res o s m
  | Res OFalse s O => try_recover c rec k s args
  | Res _ _ O => Crash
  | x => x
  end.

(** _tryt::_pc::parse, recover.hpp:223-235. *)
Definition try_cont (c : cx) (term : option rule) (k : cont) : cont :=
  Cont false (fun s a =>
    mark (match term with None => k_fn k s a | Some t => e_parse E c t k s a end)).

Definition p_try (c : cx) (term : option rule) (r : rule) (rec : option rule) (k : cont) (s : st)
    (args : list val) : res :=
  try_after c rec k args (e_parse E c r (try_cont c term k) s args).

(** _pc::sub_context, action/base.hpp:135-146. *)
Definition child_cx (c : cx) (p : nat) : cx :=
  let d := prods p in
  Cx (if p_token d then p_ws d else match p_ws d with None => cx_ws c | w => w end) (cx_max c).

(** context_finish_parser, action/base.hpp:175-194. *)
Definition prod_finish (c : cx) (p : nat) (k : cont) (args : list val) (s : st) (vs : list val) : res :=
  let args := args ++ [VProd p vs] in
  if p_token (prods p) then ws_then c k s args else k_fn k s args.

(** production.hpp:58-72 and 106-120. *)
Definition prod_after (c : cx) (p : nat) (k : cont) (args : list val) (result : res) : res :=
  match result with
  | Res (OTrue vs) s _ => prod_finish c p k args (emit (EPFinish p (pos s)) s) vs
  | Res OFalse s _ => Res OFalse (emit (EPCancel p (pos s)) s) 0
  | Res _ _ _ => Crash
  | NoFuel => NoFuel
  | Crash => Crash
  end.

(** _prd::p::parse, production.hpp:40-75. *)
Definition p_prod (c : cx) (p : nat) (k : cont) (s : st) (args : list val) : res :=
  let c' := child_cx c p in
  let s := emit (EPStart p (pos s)) s in
  let body s := e_parse E c' (p_rule (prods p)) final s [] in
  match p_ws (prods p) with
  | None => prod_after c p k args (body s)
  | Some _ => prod_after c p k args (ws_then c' (Cont false (fun s _ => body s)) s [])
  end.

(** _recb::_depth_handler, production.hpp:146-177. *)
Definition depth_cont (k : cont) : cont :=
  Cont false (fun s a => k_fn k (setdepth (pred (depth s)) s) a).

Definition inc_depth (c : cx) (t : etag) (s : st) (ok : st -> res) : res :=
  if cx_max c =? 0 then Crash
  else if cx_max c <=? depth s then Res OFalse (emit (EError t (pos s) (pos s)) s) 0
  else ok (setdepth (S (depth s)) s).

(** _wsn::_pc, whitespace.hpp:240-252. *)
Definition nows_cont (c : cx) (k : cont) : cont :=
  Cont false (fun s a => ws_then c k (setwsf true s) a).

(** _rep_impl::loop, repeat.hpp:14-72. *)
Fixpoint rep_more (c : cx) (item : rule) (sep : option (rule * sepk)) (n : nat) (s : st)
    (acc : list (list val)) : res :=
  match n with
  | O =>
      match sep with
      | None => Res (OTrue [VSink acc]) s 0
      | Some sp =>
          delim (e_parse E c (trailing_rule sp) final s [])
            (fun s v => Res (OTrue [VSink (push v acc)]) s 0)
      end
  | S n =>
      let next s acc :=
        delim (e_parse E c item final s []) (fun s v => rep_more c item sep n s (push v acc)) in
      match sep with
      | None => next s acc
      | Some (sr, _) => delim (e_parse E c sr final s []) (fun s v => next s (push v acc))
      end
  end.

Definition rep_loop (c : cx) (item : rule) (sep : option (rule * sepk)) (n : nat) (s : st) : res :=
  match n with
  | O => Res (OTrue [VSink []]) s 0
  | S n => delim (e_parse E c item final s []) (fun s v => rep_more c item sep n s (push v []))
  end.

(** _repd, _repl, _repc, repeat.hpp:74-128, after the count was parsed. *)
Definition rep_run (c : cx) (m : repm) (item : rule) (sep : option (rule * sepk)) (k : cont)
    (args : list val) (s : st) (vs : list val) : res :=
  match count_of vs with
  | None => Crash
  | Some n =>
      delim (rep_loop c item sep n s) (fun s' v =>
        k_fn k s' (match m with
                   | RepDiscard => args
                   | RepList => args ++ v
                   | RepCapture => args ++ [VLex (pos s) (pos s')]
                   end))
  end.

(** _comb::p::parse, combination.hpp:79-112. *)
Fixpoint set_nth (i : nat) (l : list bool) : list bool :=
  match l, i with
  | [], _ => []
  | _ :: l, O => true :: l
  | b :: l, S i => b :: set_nth i l
  end.

Fixpoint comb_alts (i : nat) (rs : list rule) : list rule :=
  match rs with
  | [] => []
  | RBr c l :: rs => RBr c (l ++ [RCombIt i]) :: comb_alts (S i) rs
  | r :: rs => RBr r [RCombIt i] :: comb_alts (S i) rs
  end.

Definition comb_choice (els : option rule) (rs : list rule) : rule :=
  alts_of (comb_alts 0 rs ++ match els with None => [] | Some e => [e] end).

Definition comb_step (c : cx) (dup : etag) (alts : rule) (n count : nat) (handled : list bool)
    (s : st) (acc : list (list val)) : res :=
  if n <=? count then Res (OTrue [VSink acc]) s 0
  else
    match e_parse E c alts final s [] with
    | Res OFalse s1 _ => Res OFalse s1 0
    | Res OBreak s1 _ => Res (OTrue [VSink acc]) s1 0
    | Res (OItem i vs) s1 _ =>
        if nth i handled false
        then e_comb E c dup alts n count handled (emit (EError dup (pos s) (pos s1)) s1) acc
        else e_comb E c dup alts n (S count) (set_nth i handled) s1 (push vs acc)
    | Res (OTrue _) _ _ => Crash
    | NoFuel => NoFuel
    | Crash => Crash
    end.

(** _flags::p::_parse, flags.hpp:36-66.  [bp.value()] is the value the branch produces. *)
Definition flags_step (c : cx) (r : rule) (t : etag) (z : Z) (s : st) : res :=
  match e_try E r (vars s) (pos s) with
  | BR false b => cancel_then r b s (fun s => Res (OTrue [VInt z]) s 0)
  | BR true b =>
      delim (e_finish E c r b final s []) (fun s1 vs =>
        match vs with
        | [VInt f] =>
            let s2 := if Z.eqb (Z.land z f) f
                      then emit (EError t (pos s) (pos s1)) s1 else s1 in
            e_flags E c r t (Z.lor z f) s2
        | _ => Crash
        end)
  | BNoFuel => NoFuel
  | BCrash => Crash
  end.

(** Context variables.  A missing variable violates an assertion (action/base.hpp:61). *)
Definition with_var (id : nat) (s : st) (ok : val -> res) : res :=
  match vget id (vars s) with Some v => ok v | None => Crash end.

(** create(): context_counter.hpp:28-44, context_flag.hpp:15-31, context_identifier.hpp:27-43. *)
Definition p_create (id : nat) (v : val) (k : cont) (s : st) (args : list val) : res :=
  match k_fn k (setvars ((id, v) :: vars s) s) args with
  | Res o s' m => Res o (unlink (length (vars s)) s') m
  | x => x
  end.

Definition push_cont (id : nat) (sign : Z) (b : nat) (k : cont) : cont :=
  Cont false (fun s a =>
    with_var id s (fun v =>
      match v with
      | VInt z => k_fn k (setvars (vset id (VInt (z + Z.of_nat (pos s - b) * sign)) (vars s)) s) a
      | _ => Crash
      end)).

Fixpoint all_eq (v : val) (ids : list nat) (vs : list (nat * val)) : option bool :=
  match ids with
  | [] => Some true
  | i :: ids =>
      match vget i vs with
      | None => None
      | Some w => match all_eq v ids vs with Some b => Some (val_eqb v w && b) | None => None end
      end
  end.

(** equal_lexemes, lexeme.hpp:118-140 *)
Definition lex_eqb (v : val) (b e : nat) : bool :=
  match v with VLex b' e' => eqb_list (slice inp b' e') (slice inp b e) | _ => false end.

(** capture(rule)'s continuation, capture.hpp:68-80: previous arguments, lexeme, new ones. *)
Definition capr_cont (c : cx) (b n : nat) (k : cont) : cont :=
  Cont true (fun s a =>
    ws_then c k s (firstn n a ++ VLex b (pos s) :: skipn n a)).

(** _pas: the rule's values become one value. *)
Definition pas_after (k : cont) (args : list val) (r : res) : res :=
  delim r (fun s vs => k_fn k s (args ++ [VAs vs])).

(** _do_action, action/base.hpp:201-225. *)
Definition do_action (c : cx) (p : nat) (s : st) : res :=
  let s := emit (EPStart p (pos s)) (emit (EGStart (pos s)) s) in
  match ws_then c (Cont false (e_parse E c (p_rule (prods p)) final)) s [] with
  | Res (OTrue vs) s _ =>
      Res (OTrue vs) (emit (EGFinish (pos s)) (emit (EPFinish p (pos s)) s)) 0
  | Res OFalse s _ =>
      Res OFalse (emit (EGCancel (pos s)) (emit (EPCancel p (pos s)) s)) 0
  | Res _ _ _ => Crash
  | NoFuel => NoFuel
  | Crash => Crash
  end.

(** ** [parser_for<r, k>::parse] *)
Definition parse_step (c : cx) (r : rule) (k : cont) (s : st) (args : list val) : res :=
  match r with
  | RTok _ | RTokOf _ _ => (* token.hpp:103-115 *)
      token_parse r s (fun _ s => ws_then c k s args)
  | RSeq rs => p_seq c rs k s args
  | RBr b rs => p_seq c (b :: rs) k s args (* branch.hpp:22-23 *)
  | RElse => k_fn k s args
  | RChc rs => p_chc c (existsb unconditional rs) rs k s args
  | RIf b => branch_or c b k s args (fun s => k_fn k s args)
  | ROpt b => branch_or c b k s args (fun s => k_fn k s (args ++ [VNull]))
  | ROptT term r =>
      match e_try E term (vars s) (pos s) with
      | BR true b => e_finish E c term b k s (args ++ [VNull])
      | BR false b => cancel_then term b s (fun s => e_parse E c r k s args)
      | BNoFuel => NoFuel
      | BCrash => Crash
      end
  | RErr t r => p_err t r s
  | RMust b t r => branch_or c b k s args (fun s => p_err t r s)
  | RBreak => Res OBreak s 0
  | RLoop r =>
      match e_parse E c r final s [] with
      | Res (OTrue _) s _ => e_parse E c (RLoop r) k s args
      | Res OBreak s _ => k_fn k s args
      | Res OFalse s _ => Res OFalse s 0
      | Res (OItem _ _) _ _ => Crash
      | NoFuel => NoFuel
      | Crash => Crash
      end
  | RWhile b =>
      match e_try E b (vars s) (pos s) with
      | BR true bs =>
          delim (e_finish E c b bs final s []) (fun s _ => e_parse E c (RWhile b) k s args)
      | BR false bs => cancel_then b bs s (fun s => k_fn k s args)
      | BNoFuel => NoFuel
      | BCrash => Crash
      end
  | RLst item sep => (* list.hpp:69-90 *)
      delim (e_parse E c item final s []) (fun s v =>
        delim (e_lst E c item sep s (push v [])) (sink_finish k args))
  | RLstT term item sep lim => p_lstt c term item sep lim k s args
  | RNSep b t => p_nsep c b t k s args
  | RFind f => p_find f k s args
  | RReco lim bs =>
      e_reco E c lim (alts_of bs) (pos s) k (emit (ERStart (pos s)) s) args
  | RRecW r => p_recw c r k s args
  | RTryT term r rec => p_try c term r rec k s args
  | RTry r rec => p_try c None r rec k s args
  | RProd p => p_prod c p k s args
  | RRec p t | RRecB p t =>
      inc_depth c t s (fun s => e_parse E c (RProd p) (depth_cont k) s args)
  | RWs r => skip_ws r s (fun s => k_fn k s args)
  | RNoWs r =>
      match cx_ws c with
      | None => e_parse E c r k s args
      | Some _ => e_parse E c r (nows_cont c k) (setwsf false s) args
      end
  | RPeek r t => (* peek.hpp:65-87 *)
      match tmatch r (pos s) with
      | TR ok e =>
          let s1 := if ok then s else emit (EError t (pos s) e) s in
          k_fn k (emit (EBack (pos s) e) s1) args
      | TNoFuel => NoFuel
      | TCrash => Crash
      end
  | RPeekN r t => (* peek.hpp:126-156 *)
      match tmatch r (pos s) with
      | TR true e =>
          k_fn k (setpos e (emit (ERFinish e) (emit (EToken KError (pos s) e)
                   (emit (ERStart (pos s)) (emit (EError t (pos s) e) s))))) args
      | TR false e => k_fn k (emit (EBack (pos s) e) s) args
      | TNoFuel => NoFuel
      | TCrash => Crash
      end
  | RLook f t => (* lookahead.hpp:99-121 *)
      let '(ok, _, e) := search_from f (pos s) in
      let s1 := if ok then s else emit (EError t (pos s) e) s in
      k_fn k (emit (EBack (pos s) e) s1) args
  | RRep m count item sep =>
      delim (e_parse E c count final s []) (rep_run c m item sep k args)
  | RComb dup els rs =>
      let n := length rs in
      delim (e_comb E c dup (comb_choice els rs) n 0 (repeat false n) s []) (sink_finish k args)
  | RCombIt i => Res (OItem i args) s 0
  | RFlags r d t => delim (e_flags E c r t d s) (fun s v => k_fn k s (args ++ v))
  | RFlag r a b =>
      match e_try E r (vars s) (pos s) with
      | BR true bs => e_finish E c r bs k s (args ++ [VInt a])
      | BR false bs => cancel_then r bs s (fun s => k_fn k s (args ++ [VInt b]))
      | BNoFuel => NoFuel
      | BCrash => Crash
      end
  | RCtxNew id v => p_create id v k s args
  | RCtxAdd id d =>
      with_var id s (fun v =>
        match v with
        | VInt z => k_fn k (setvars (vset id (VInt (z + d)) (vars s)) s) args
        | _ => Crash
        end)
  | RCtxPush id sign r => e_parse E c r (push_cont id sign (pos s) k) s args
  | RCtxSet id b => with_var id s (fun _ => k_fn k (setvars (vset id (VBool b) (vars s)) s) args)
  | RCtxToggle id =>
      with_var id s (fun v =>
        match v with
        | VBool b => k_fn k (setvars (vset id (VBool (negb b)) (vars s)) s) args
        | _ => Crash
        end)
  | RCtxIs _ _ => k_fn k s args (* context_counter.hpp:142-143: p = NextParser *)
  | RCtxVal id => with_var id s (fun v => k_fn k s (args ++ [v]))
  | RCtxEq id ids =>
      with_var id s (fun v =>
        match all_eq v ids (vars s) with
        | None => Crash
        | Some ok => k_fn k (if ok then s else emit (EError TCounts (pos s) (pos s)) s) args
        end)
  | RCtxCap id t =>
      token_parse t s (fun e s1 =>
        ws_then c (Cont false (fun s2 a =>
          with_var id s2 (fun _ => k_fn k (setvars (vset id (VLex (pos s) e) (vars s2)) s2) a)))
          s1 (args ++ [VLex (pos s) e]))
  | RCtxRem id t tag =>
      token_parse t s (fun e s1 =>
        ws_then c (Cont false (fun s2 a =>
          with_var id s2 (fun v =>
            k_fn k (if lex_eqb v (pos s) e then s2 else emit (EError tag (pos s) e) s2) a)))
          s1 args)
  | RRet => Res (OTrue args) s 0
  | RPos => k_fn k (emit (EToken KPosition (pos s) (pos s)) s) (args ++ [VPos (pos s)])
  | RPosR r => e_parse E c r k (emit (EToken KPosition (pos s) (pos s)) s) (args ++ [VPos (pos s)])
  | RCap t =>
      token_parse t s (fun e s1 => ws_then c k s1 (args ++ [VLex (pos s) e]))
  | RCapR r => e_parse E c r (capr_cont c (pos s) (length args) k) s args
  | REof => (* eof.hpp:46-66 *)
      k_fn k (if eof (pos s) then emit (EToken KEof (pos s) (pos s)) s
              else emit (EError TEof (pos s) (pos s)) s) args
  | RPas r => pas_after k args (e_parse E c r final s [])
  | RSym t f tag => (* symbol.hpp:304-341 *)
      token_parse t s (fun e s1 =>
        ws_then c (Cont false (fun s2 a =>
          match f (slice inp (pos s) e) with
          | None => Res OFalse (emit (EError tag (pos s) e) s2) 0
          | Some z => k_fn k s2 (a ++ [VInt z])
          end)) s1 args)
  | RSub p =>
      match do_action (Cx (p_ws (prods p)) (cx_max c)) p (setvars [] s) with
      | Res (OTrue vs) s1 _ => k_fn k (setvars (vars s) s1) (args ++ [VProd p vs])
      | Res OFalse s1 _ => Res OFalse (setvars (vars s) s1) 0
      | Res _ _ _ => Crash
      | NoFuel => NoFuel
      | Crash => Crash
      end
  end.

(** ** [bp::try_parse]: sees the reader by value and the (const) control block. *)
Definition try_step (r : rule) (vs : list (nat * val)) (p : nat) : bres :=
  match r with
  | RTok _ | RTokOf _ _ | RCap _ | RCtxCap _ _ =>
      let t := match r with RCap t | RCtxCap _ t => t | r => r end in
      match tmatch t p with
      | TR ok e => BR ok (BEnd e)
      | TNoFuel => BNoFuel
      | TCrash => BCrash
      end
  | RBr b _ => e_try E b vs p
  | RElse | RBreak | RErr _ _ => BR true BNone   (* base.hpp:125-143 *)
  | RChc rs => t_chc rs 0 vs p
  | RMust b _ _ => e_try E b vs p
  | RLst r _ | RTry r _ | RNoWs r | RCtxPush _ _ r | RPosR r | RCapR r | RPas r => e_try E r vs p
  | RRep _ c _ _ => e_try E c vs p
  | RProd q =>
      match e_try E (p_rule (prods q)) vs p with
      | BR ok b => BR ok (BAt p b)
      | x => x
      end
  | RRecB q _ => e_try E (RProd q) vs p  (* production.hpp:183-195 *)
  | RPeek r _ =>
      match tmatch r p with
      | TR ok e => BR ok (BRange p e)
      | TNoFuel => BNoFuel
      | TCrash => BCrash
      end
  | RPeekN r _ =>
      match tmatch r p with
      | TR ok e => BR (negb ok) (BRange p e)
      | TNoFuel => BNoFuel
      | TCrash => BCrash
      end
  | RLook f _ => let '(ok, _, e) := search_from f p in BR ok (BRange p e)
  | RCtxIs id v =>
      match vget id vs with Some w => BR (val_eqb w v) BNone | None => BCrash end
  | RCtxEq id ids =>
      match vget id vs with
      | None => BCrash
      | Some v => match all_eq v ids vs with Some ok => BR ok BNone | None => BCrash end
      end
  | RCtxRem id t _ =>
      match tmatch t p with
      | TR true e =>
          match vget id vs with Some v => BR (lex_eqb v p e) (BEnd e) | None => BCrash end
      | TR false e => BR false (BEnd e)
      | TNoFuel => BNoFuel
      | TCrash => BCrash
      end
  | REof => BR (eof p) BNone
  | RSym t f _ =>
      match tmatch t p with
      | TR true e => BR (match f (slice inp p e) with Some _ => true | None => false end) (BEnd e)
      | TR false e => BR false (BEnd e)
      | TNoFuel => BNoFuel
      | TCrash => BCrash
      end
  | _ => BCrash     (* not a branch rule *)
  end.

(** ** [bp::cancel] *)
Definition cancel_step (r : rule) (b : bst) : option (list event) :=
  match r with
  | RBr c _ => e_cancel E c b
  | RChc rs => c_chc rs (b_alts b)
  | RMust c _ _ => e_cancel E c b
  | RLst r _ | RTry r _ | RNoWs r | RCtxPush _ _ r | RPosR r | RCapR r | RPas r => e_cancel E r b
  | RRep _ c _ _ => e_cancel E c b
  | RRecB q _ => e_cancel E (RProd q) b
  | RProd q => (* production.hpp:91-99 *)
      match e_cancel E (p_rule (prods q)) (b_in b) with
      | Some es => Some (EPStart q (b_at b) :: es ++ [EPCancel q (b_at b)])
      | None => None
      end
  | RPeek _ _ | RPeekN _ _ | RLook _ _ => Some [EBack (fst (b_range b)) (snd (b_range b))]
  | _ => Some []
  end.

(** ** [bp::finish<k>] *)
Definition finish_step (c : cx) (r : rule) (b : bst) (k : cont) (s : st) (args : list val) : res :=
  match r with
  | RTok _ | RTokOf _ _ => tok_finish c (tkind_of r) (b_end b) k s args
  | RBr d rs => (* continuation_branch_parser, base.hpp:145-168 *)
      e_finish E c d b (seq_cont c rs k) s args
  | RElse | RBreak | RErr _ _ => e_parse E c r k s args   (* base.hpp:138-142 *)
  | RChc rs => match b with BChc i bs => f_chc c rs i bs k s args | _ => Crash end
  | RMust d _ _ => e_finish E c d b k s args
  | RLst item sep => (* list.hpp:109-127 *)
      delim (e_finish E c item b final s []) (fun s v =>
        delim (e_lst E c item sep s (push v [])) (sink_finish k args))
  | RTry r rec => try_after c rec k args (e_finish E c r b (try_cont c None k) s args)
  | RNoWs r => e_finish E c r b (nows_cont c k) (setwsf false s) args
  | RCtxPush id sign r => e_finish E c r b (push_cont id sign (pos s) k) s args
  | RPosR r =>
      e_finish E c r b k (emit (EToken KPosition (pos s) (pos s)) s) (args ++ [VPos (pos s)])
  | RCap t => tok_finish c (tkind_of t) (b_end b) k s (args ++ [VLex (pos s) (b_end b)])
  | RCapR r => e_finish E c r b (capr_cont c (pos s) (length args) k) s args
  | RPas r => pas_after k args (e_finish E c r b final s [])
  | RRep m count item sep =>
      delim (e_finish E c count b final s []) (rep_run c m item sep k args)
  | RProd q => (* production.hpp:101-120 *)
      prod_after c q k args
        (e_finish E (child_cx c q) (p_rule (prods q)) (b_in b) final
           (emit (EPStart q (b_at b)) s) [])
  | RRecB q t => inc_depth c t s (fun s => e_finish E c (RProd q) b (depth_cont k) s args)
  | RPeek _ _ | RPeekN _ _ | RLook _ _ =>
      k_fn k (emit (EBack (fst (b_range b)) (snd (b_range b))) s) args
  | RCtxIs _ _ | RCtxEq _ _ => k_fn k s args
  | RCtxCap id t =>
      tok_finish c (tkind_of t) (b_end b)
        (Cont false (fun s2 a =>
          with_var id s2 (fun _ => k_fn k (setvars (vset id (VLex (pos s) (b_end b)) (vars s2)) s2) a)))
        s (args ++ [VLex (pos s) (b_end b)])
  | RCtxRem _ _ _ => tok_finish c KIdentifier (b_end b) k s args
  | REof => k_fn k (emit (EToken KEof (pos s) (pos s)) s) args
  | RSym t f _ =>
      match f (slice inp (pos s) (b_end b)) with
      | Some z => tok_finish c (tkind_of t) (b_end b) k s (args ++ [VInt z])
      | None => Crash
      end
  | _ => Crash
  end.

Definition step : engine :=
  Engine parse_step try_step finish_step cancel_step wsloop_step lst_step lstt_step reco_step
         comb_step flags_step.

End Step.

Definition eng0 : engine :=
  Engine (fun _ _ _ _ _ => NoFuel) (fun _ _ _ => BNoFuel) (fun _ _ _ _ _ _ => NoFuel)
         (fun _ _ => None) (fun _ _ => TNoFuel) (fun _ _ _ _ _ => NoFuel)
         (fun _ _ _ _ _ _ _ _ _ => NoFuel) (fun _ _ _ _ _ _ _ => NoFuel)
         (fun _ _ _ _ _ _ _ _ => NoFuel) (fun _ _ _ _ _ => NoFuel).

Fixpoint eng (n : nat) : engine := match n with O => eng0 | S n => step (eng n) end.

(** lexy::do_action<Production>, action/base.hpp:227-248: a fresh control block. *)
Definition action (n p : nat) : res :=
  do_action (eng n) (Cx (p_ws (prods p)) (p_max (prods p))) p (St 0 0 true [] []).

End Engine.

(** ** Derived rules *)

(** _maybe_branch, branch.hpp:103-110; terminator::operator(), terminator.hpp:41-45. *)
Definition maybe_branch (prods : nat -> production) (c : rule) (r : rule) : rule :=
  if is_branch prods c
  then match c with RBr d l => RBr d (l ++ [r]) | _ => RBr c [r] end
  else match c with RSeq l => RSeq (l ++ [r]) | _ => RSeq [c; r] end.

(** _times::_repeated_rule, times.hpp:15-35. *)
Fixpoint times (n : nat) (r : rule) (sep : option (rule * sepk)) : list rule :=
  match n with
  | O => []
  | 1 => match sep with None => [r] | Some sp => [r; trailing_rule sp] end
  | S n => match sep with
           | None => r :: times n r sep
           | Some sp => r :: fst sp :: times n r sep
           end
  end.
Definition RTimes (n : nat) (r : rule) (sep : option (rule * sepk)) : rule := RSeq (times n r sep).

(** while_one and do_while, loop.hpp:104-120. *)
Definition RWhileOne (b : rule) : rule := RBr b [RWhile b].

(** terminator.hpp:23-102: try_, opt, list, opt_list of a terminator. *)
Definition term_try (t : rule) (lim : token) (r : rule) : rule := RTryT (Some t) r (Some (RReco lim [t])).
Definition term_opt (t : rule) (lim : token) (r : rule) : rule := ROptT t (term_try t lim r).
Definition term_list (t : rule) (lim : token) (r : rule) (sep : option (rule * sepk)) : rule :=
  RLstT t r sep lim.
Definition term_opt_list (t : rule) (lim : token) (r : rule) (sep : option (rule * sepk)) : rule :=
  ROptT t (term_list t lim r sep).

(** brackets.hpp:13-90: open >> terminator... *)
Definition brackets (open : rule) (inner : rule) : rule := RBr open [inner].

(** ** Sample tokens *)

Definition mk_try (f : list N -> nat -> bool * nat) (inp : list N) (p : nat) : bool * nat :=
  let '(ok, e) := f inp p in (ok, Nat.max p (Nat.min e (length inp))).

Fixpoint common (s t : list N) : nat :=
  match s, t with
  | a :: s, b :: t => if N.eqb a b then S (common s t) else 0
  | _, _ => 0
  end.

Lemma mk_try_ok f inp p : p <= length inp -> p <= snd (mk_try f inp p) <= length inp.
Proof. intros. unfold mk_try. destruct (f inp p). cbn [snd]. lia. Qed.

Lemma point_ok (inp : list N) (p : nat) : p <= length inp -> p <= p <= p /\ p <= length inp.
Proof. lia. Qed.

(** A literal: on failure the end is after the common prefix. *)
Definition lit_tok (k : tkind) (t : etag) (l : list N) : token :=
  Token k
    (mk_try (fun inp p =>
       let c := common l (skipn p inp) in (c =? length l, p + c)))
    (fun _ p => (t, p, p))
    (fun inp p => mk_try_ok _ inp p)
    (fun inp p => point_ok inp p).

(** A character class: one unit. *)
Definition class_tok (k : tkind) (t : etag) (f : N -> bool) : token :=
  Token k
    (mk_try (fun inp p =>
       match nth_error inp p with Some u => if f u then (true, S p) else (false, p) | None => (false, p) end))
    (fun _ p => (t, p, p))
    (fun inp p => mk_try_ok _ inp p)
    (fun inp p => point_ok inp p).

(** literal_set(): never matches. *)
Definition no_tok : token :=
  Token KUnknown (mk_try (fun _ p => (false, p))) (fun _ p => (TMissing, p, p))
    (fun inp p => mk_try_ok _ inp p) (fun inp p => point_ok inp p).

Lemma fd_of_ok (f : list N -> nat -> option (bool * nat)) inp p b e :
  p <= length inp ->
  match f inp p with Some (b, e) => Some (b, Nat.max p (Nat.min e (length inp))) | None => None end = Some (b, e) ->
  p <= e <= length inp.
Proof. intros H. destruct (f inp p) as [[? ?]|]; [intros [= <- <-]; lia|discriminate]. Qed.

Definition lit_finder (needle limit : list N) : finder :=
  Finder
    (fun inp p =>
       match (if common needle (skipn p inp) =? length needle then Some (true, p + length needle)
              else if (0 <? length limit) && (common limit (skipn p inp) =? length limit)
                   then Some (false, p + length limit) else None) with
       | Some (b, e) => Some (b, Nat.max p (Nat.min e (length inp)))
       | None => None
       end)
    (fun inp p b e H =>
       fd_of_ok (fun inp p => if common needle (skipn p inp) =? length needle then Some (true, p + length needle)
              else if (0 <? length limit) && (common limit (skipn p inp) =? length limit)
                   then Some (false, p + length limit) else None) inp p b e H).
