(** What a grammar describes: which texts a rule matches, and with which values.  Nothing here
    knows about events, continuations or error recovery. *)
From Verif Require Import Prelude RuleModel RuleLists.
Close Scope N_scope.

Section Lang.
Variable inp : list N.
Variable prods : nat -> production.

(** Looking ahead for what [f] searches: the first place from [p] on where it decides. *)
Inductive Ahead (f : finder) : nat -> bool -> Prop :=
| Ahead_here p ok e : fd_try f inp p = Some (ok, e) -> Ahead f p ok
| Ahead_later p ok : fd_try f inp p = None -> p < length inp -> Ahead f (S p) ok -> Ahead f p ok
| Ahead_end p : fd_try f inp p = None -> length inp <= p -> Ahead f p false.

(** The text of the token is a symbol of the table. *)
Definition symbol_at (t : token) (f : list N -> option Z) (p : nat) : bool :=
  match tk_try t inp p with
  | (true, e) => match f (slice inp p e) with Some _ => true | None => false end
  | _ => false
  end.

(** The condition of a branch rule at a position: the tokens decide, left to right. *)
Inductive Cond : rule -> nat -> bool -> Prop :=
| C_tok t p : Cond (RTok t) p (fst (tk_try t inp p))
| C_cap t p : Cond (RCap (RTok t)) p (fst (tk_try t inp p))
| C_br b rs p ok : Cond b p ok -> Cond (RBr b rs) p ok
| C_else p : Cond RElse p true
| C_err t r p : Cond (RErr t r) p true
| C_break p : Cond RBreak p true
| C_chc_nil p : Cond (RChc []) p false
| C_chc_hit r rs p : Cond r p true -> Cond (RChc (r :: rs)) p true
| C_chc_miss r rs p ok : Cond r p false -> Cond (RChc rs) p ok -> Cond (RChc (r :: rs)) p ok
| C_must b t r p ok : Cond b p ok -> Cond (RMust b t r) p ok
| C_lst i sep p ok : Cond i p ok -> Cond (RLst i sep) p ok
| C_try r rec p ok : Cond r p ok -> Cond (RTry r rec) p ok
| C_posr r p ok : Cond r p ok -> Cond (RPosR r) p ok
| C_pas r p ok : Cond r p ok -> Cond (RPas r) p ok
| C_prod q p ok : Cond (p_rule (prods q)) p ok -> Cond (RProd q) p ok
| C_recb q t p ok : Cond (RProd q) p ok -> Cond (RRecB q t) p ok
| C_peek t tag p : Cond (RPeek (RTok t) tag) p (fst (tk_try t inp p))
| C_peekn t tag p : Cond (RPeekN (RTok t) tag) p (negb (fst (tk_try t inp p)))
| C_look f tag p ok : Ahead f p ok -> Cond (RLook f tag) p ok
| C_rep m n i sep p ok : Cond n p ok -> Cond (RRep m n i sep) p ok
| C_sym t f tag p : Cond (RSym (RTok t) f tag) p (symbol_at t f p)
| C_eof p : Cond REof p (length inp <=? p).

(** The first of the rules whose condition holds. *)
Inductive Pick : list rule -> nat -> option nat -> Prop :=
| Pick_none p : Pick [] p None
| Pick_here r rs p : Cond r p true -> Pick (r :: rs) p (Some 0)
| Pick_next r rs p o : Cond r p false -> Pick rs p o -> Pick (r :: rs) p (option_map S o).

(** What can be matched: a rule, of which the condition was already found to hold or not; the
    rules of a sequence; whitespace; as many of a branch as there are; the rest of a list; the
    rest of a list with terminator; a number of items after the first; flags, the ones in [z] were
    there before; the rest of a combination, the rules in [used] were there before; the rest of a
    loop. *)
Inductive job :=
| JR (taken : bool) (r : rule)
| JS (rs : list rule)
| JW
| JL (b : rule)
| JM (item : rule) (sep : option (rule * sepk))
| JT (term item : rule) (sep : option (rule * sepk))
| JN (n : nat) (item : rule) (sep : option (rule * sepk))
| JF (flag : rule) (z : Z)
| JC (els : option rule) (rs : list rule) (used : list nat)
| JO (rs : list rule).

(** An alternative that leaves the loop: what comes before the break_. *)
Definition before_break (r : rule) : option rule :=
  match r with
  | RBreak => Some RElse
  | RBr b l => match rev l with RBreak :: t => Some (RBr b (rev t)) | _ => None end
  | _ => None
  end.

(** What repeat() passes on: nothing, the sink or the text of the items. *)
Definition repeated (m : repm) (l : list (list val)) (p q : nat) : list val :=
  match m with RepDiscard => [] | RepList => [VSink l] | RepCapture => [VLex p q] end.

Definition silent_trailing (k : sepk) : Prop := match k with SErr _ => False | _ => True end.

(** Inside a production: its own whitespace; that around it if it has none and is not a token. *)
Definition inner (c : cx) (q : nat) : cx :=
  Cx (match p_ws (prods q) with
      | Some w => Some w
      | None => if p_token (prods q) then None else cx_ws c
      end) (cx_max c).
(** The whitespace a production skips before its rule: its own; and behind it: that around it, if
    it is a token. *)
Definition before (q : nat) : cx := Cx (p_ws (prods q)) 0.
Definition behind (c : cx) (q : nat) : cx := Cx (if p_token (prods q) then cx_ws c else None) 0.
(** Inside a nested grammar. *)
Definition nested (c : cx) (q : nat) : cx := Cx (p_ws (prods q)) (cx_max c).

(** [Derives c d j p vs q]: in the context [c] (whitespace, limit of the recursion depth), at
    recursion depth [d], [j] matches the text from [p] to [q] and gives the values [vs]. *)
Inductive Derives : cx -> nat -> job -> nat -> list val -> nat -> Prop :=
(* tokens; whitespace is skipped behind them *)
| D_tok c d t0 t p e q : tk_try t inp p = (true, e) -> Derives c d JW e [] q ->
    Derives c d (JR t0 (RTok t)) p [] q
| D_cap c d t0 t p e q : tk_try t inp p = (true, e) -> Derives c d JW e [] q ->
    Derives c d (JR t0 (RCap (RTok t))) p [VLex p e] q
(* sequences and branches *)
| D_nil c d p : Derives c d (JS []) p [] p
| D_cons c d r rs p v q1 vs q : Derives c d (JR false r) p v q1 -> Derives c d (JS rs) q1 vs q ->
    Derives c d (JS (r :: rs)) p (v ++ vs) q
| D_seq c d t0 rs p vs q : Derives c d (JS rs) p vs q -> Derives c d (JR t0 (RSeq rs)) p vs q
| D_br c d t0 b rs p v q1 vs q : Derives c d (JR t0 b) p v q1 -> Derives c d (JS rs) q1 vs q ->
    Derives c d (JR t0 (RBr b rs)) p (v ++ vs) q
| D_else c d t0 p : Derives c d (JR t0 RElse) p [] p
(* the first alternative whose condition holds *)
| D_chc_hit c d t0 r rs p vs q : Cond r p true -> Derives c d (JR true r) p vs q ->
    Derives c d (JR t0 (RChc (r :: rs))) p vs q
| D_chc_miss c d t0 r rs p vs q : Cond r p false -> Derives c d (JR t0 (RChc rs)) p vs q ->
    Derives c d (JR t0 (RChc (r :: rs))) p vs q
| D_if_yes c d t0 b p vs q : Cond b p true -> Derives c d (JR true b) p vs q -> Derives c d (JR t0 (RIf b)) p vs q
| D_if_no c d t0 b p : Cond b p false -> Derives c d (JR t0 (RIf b)) p [] p
| D_opt_yes c d t0 b p vs q : Cond b p true -> Derives c d (JR true b) p vs q -> Derives c d (JR t0 (ROpt b)) p vs q
| D_opt_no c d t0 b p : Cond b p false -> Derives c d (JR t0 (ROpt b)) p [VNull] p
| D_optt_end c d t0 te r p vs q : Cond te p true -> Derives c d (JR true te) p vs q ->
    Derives c d (JR t0 (ROptT te r)) p (VNull :: vs) q
| D_optt_rule c d t0 te r p vs q : Cond te p false -> Derives c d (JR false r) p vs q ->
    Derives c d (JR t0 (ROptT te r)) p vs q
| D_must c d b t r p vs q : Cond b p true -> Derives c d (JR true b) p vs q -> Derives c d (JR false (RMust b t r)) p vs q
| D_must_taken c d b t r p vs q : Derives c d (JR true b) p vs q -> Derives c d (JR true (RMust b t r)) p vs q
(* loops *)
| D_stop c d b p : Cond b p false -> Derives c d (JL b) p [] p
| D_more c d b p vs q1 q : Cond b p true -> Derives c d (JR true b) p vs q1 -> Derives c d (JL b) q1 [] q ->
    Derives c d (JL b) p [] q
| D_loop c d t0 rs p q : Derives c d (JO rs) p [] q -> Derives c d (JR t0 (RLoop (RChc rs))) p [] q
| D_o_more c d rs i r p v q1 q : Pick rs p (Some i) -> nth_error rs i = Some r -> before_break r = None ->
    Derives c d (JR true r) p v q1 -> Derives c d (JO rs) q1 [] q -> Derives c d (JO rs) p [] q
| D_o_break c d rs i r r' p v q : Pick rs p (Some i) -> nth_error rs i = Some r -> before_break r = Some r' ->
    Derives c d (JR true r') p v q -> Derives c d (JO rs) p [] q
| D_while c d t0 b p q : Derives c d (JL b) p [] q -> Derives c d (JR t0 (RWhile b)) p [] q
(* lists *)
| D_lst c d t0 i sep p v q1 l q : Derives c d (JR t0 i) p v q1 -> Derives c d (JM i sep) q1 [VSink l] q ->
    Derives c d (JR t0 (RLst i sep)) p [VSink (one v ++ l)] q
| D_m_end c d i p : is_branch prods i = true -> Cond i p false -> Derives c d (JM i None) p [VSink []] p
| D_m_item c d i p v q1 l q : is_branch prods i = true -> Cond i p true -> Derives c d (JR true i) p v q1 ->
    Derives c d (JM i None) q1 [VSink l] q -> Derives c d (JM i None) p [VSink (one v ++ l)] q
| D_m_rule c d i p v q1 l q : is_branch prods i = false -> Derives c d (JR false i) p v q1 ->
    Derives c d (JM i None) q1 [VSink l] q -> Derives c d (JM i None) p [VSink (one v ++ l)] q
| D_s_end c d i sr k p : Cond sr p false -> Derives c d (JM i (Some (sr, k))) p [VSink []] p
| D_s_trail c d i sr k p v q : Cond sr p true -> Derives c d (JR true sr) p v q ->
    is_branch prods i = true -> Cond i q false -> silent_trailing k ->
    Derives c d (JM i (Some (sr, k))) p [VSink (one v)] q
| D_s_item c d i sr k p v q1 v2 q2 l q : Cond sr p true -> Derives c d (JR true sr) p v q1 ->
    is_branch prods i = true -> Cond i q1 true -> Derives c d (JR true i) q1 v2 q2 ->
    Derives c d (JM i (Some (sr, k))) q2 [VSink l] q ->
    Derives c d (JM i (Some (sr, k))) p [VSink (one v ++ one v2 ++ l)] q
| D_s_rule c d i sr k p v q1 v2 q2 l q : Cond sr p true -> Derives c d (JR true sr) p v q1 ->
    is_branch prods i = false -> Derives c d (JR false i) q1 v2 q2 ->
    Derives c d (JM i (Some (sr, k))) q2 [VSink l] q ->
    Derives c d (JM i (Some (sr, k))) p [VSink (one v ++ one v2 ++ l)] q
(* lists with terminator *)
| D_lstt c d t0 te i sep lim p v q1 l q2 vs q : Derives c d (JR false i) p v q1 ->
    Derives c d (JT te i sep) q1 [VSink l] q2 -> Cond te q2 true -> Derives c d (JR true te) q2 vs q ->
    Derives c d (JR t0 (RLstT te i sep lim)) p (VSink (one v ++ l) :: vs) q
| D_t_end c d te i sep p : Cond te p true -> Derives c d (JT te i sep) p [VSink []] p
| D_t_item c d te i p v q1 l q : Cond te p false -> Derives c d (JR false i) p v q1 ->
    Derives c d (JT te i None) q1 [VSink l] q -> Derives c d (JT te i None) p [VSink (one v ++ l)] q
| D_t_trail c d te i sr k p v q : Cond te p false -> Derives c d (JR false sr) p v q -> Cond te q true ->
    silent_trailing k -> Derives c d (JT te i (Some (sr, k))) p [VSink (one v)] q
| D_t_sep c d te i sr k p v q1 v2 q2 l q : Cond te p false -> Derives c d (JR false sr) p v q1 -> Cond te q1 false ->
    Derives c d (JR false i) q1 v2 q2 -> Derives c d (JT te i (Some (sr, k))) q2 [VSink l] q ->
    Derives c d (JT te i (Some (sr, k))) p [VSink (one v ++ one v2 ++ l)] q
| D_nsep c d t0 b t p : Cond b p false -> Derives c d (JR t0 (RNSep b t)) p [] p
(* recovery plays no role *)
| D_tryt c d t0 te r rec p v q1 vs q : Derives c d (JR false r) p v q1 ->
    Derives c d (JS (match te with Some t => [t] | None => [] end)) q1 vs q ->
    Derives c d (JR t0 (RTryT te r rec)) p (v ++ vs) q
| D_try c d t0 r rec p vs q : Derives c d (JR t0 r) p vs q -> Derives c d (JR t0 (RTry r rec)) p vs q
(* productions; one that is not entered as a branch first skips the whitespace it defines *)
| D_prod c d q0 p p1 vs q1 q :
    Derives (before q0) d JW p [] p1 ->
    Derives (inner c q0) d (JR false (p_rule (prods q0))) p1 vs q1 ->
    Derives (behind c q0) d JW q1 [] q ->
    Derives c d (JR false (RProd q0)) p [VProd q0 vs] q
| D_prod_taken c d q0 p vs q1 q :
    Derives (inner c q0) d (JR true (p_rule (prods q0))) p vs q1 ->
    Derives (behind c q0) d JW q1 [] q ->
    Derives c d (JR true (RProd q0)) p [VProd q0 vs] q
| D_rec c d t0 q0 t p vs q : d < cx_max c -> Derives c (S d) (JR false (RProd q0)) p vs q ->
    Derives c d (JR t0 (RRec q0 t)) p vs q
| D_recb c d t0 q0 t p vs q : d < cx_max c -> Derives c (S d) (JR t0 (RProd q0)) p vs q ->
    Derives c d (JR t0 (RRecB q0 t)) p vs q
(* a nested grammar: its own whitespace only *)
| D_sub c d t0 q0 p p1 vs q :
    Derives (nested c q0) d JW p [] p1 -> Derives (nested c q0) d (JR false (p_rule (prods q0))) p1 vs q ->
    Derives c d (JR t0 (RSub q0)) p [VProd q0 vs] q
(* looking ahead, positions, end of input *)
| D_peek c d t0 t tag p : fst (tk_try t inp p) = true -> Derives c d (JR t0 (RPeek (RTok t) tag)) p [] p
| D_peekn c d t0 t tag p : fst (tk_try t inp p) = false -> Derives c d (JR t0 (RPeekN (RTok t) tag)) p [] p
| D_pos c d t0 p : Derives c d (JR t0 RPos) p [VPos p] p
| D_posr c d t0 r p vs q : Derives c d (JR t0 r) p vs q -> Derives c d (JR t0 (RPosR r)) p (VPos p :: vs) q
| D_eof c d t0 p : length inp <= p -> Derives c d (JR t0 REof) p [] p
| D_pas c d t0 r p vs q : Derives c d (JR t0 r) p vs q -> Derives c d (JR t0 (RPas r)) p [VAs vs] q
(* lookahead, symbols, flags *)
| D_look c d t0 f tag p : Ahead f p true -> Derives c d (JR t0 (RLook f tag)) p [] p
| D_sym c d t0 t f tag p e z q : tk_try t inp p = (true, e) -> f (slice inp p e) = Some z -> Derives c d JW e [] q ->
    Derives c d (JR t0 (RSym (RTok t) f tag)) p [VInt z] q
| D_flag_yes c d t0 r a b p vs q : Cond r p true -> Derives c d (JR true r) p vs q ->
    Derives c d (JR t0 (RFlag r a b)) p (VInt a :: vs) q
| D_flag_no c d t0 r a b p : Cond r p false -> Derives c d (JR t0 (RFlag r a b)) p [VInt b] p
| D_flags c d t0 r z tag p vs q : Derives c d (JF r z) p vs q -> Derives c d (JR t0 (RFlags r z tag)) p vs q
| D_f_end c d r z p : Cond r p false -> Derives c d (JF r z) p [VInt z] p
| D_f_flag c d r z f p q1 vs q : Cond r p true -> Derives c d (JR true r) p [VInt f] q1 -> Z.land z f <> f ->
    Derives c d (JF r (Z.lor z f)) q1 vs q -> Derives c d (JF r z) p vs q
(* as many items as the count says *)
| D_rep_none c d t0 m n i sep p v q : Derives c d (JR t0 n) p v q -> count_of v = Some 0 ->
    Derives c d (JR t0 (RRep m n i sep)) p (repeated m [] q q) q
| D_rep_some c d t0 m n i sep p v q1 j v2 q2 l q : Derives c d (JR t0 n) p v q1 -> count_of v = Some (S j) ->
    Derives c d (JR false i) q1 v2 q2 -> Derives c d (JN j i sep) q2 [VSink l] q ->
    Derives c d (JR t0 (RRep m n i sep)) p (repeated m (one v2 ++ l) q1 q) q
| D_n_end c d i p : Derives c d (JN 0 i None) p [VSink []] p
| D_n_any c d i sr p : Derives c d (JN 0 i (Some (sr, SIgnore))) p [VSink []] p
| D_n_stop c d i sr k p : Cond sr p false -> k <> SIgnore -> Derives c d (JN 0 i (Some (sr, k))) p [VSink []] p
| D_n_trail c d i sr p v q : Cond sr p true -> Derives c d (JR true sr) p v q ->
    Derives c d (JN 0 i (Some (sr, STrail))) p [VSink (one v)] q
| D_n_item c d n i p v q1 l q : Derives c d (JR false i) p v q1 -> Derives c d (JN n i None) q1 [VSink l] q ->
    Derives c d (JN (S n) i None) p [VSink (one v ++ l)] q
| D_n_sep c d n i sr k p v q1 v2 q2 l q : Derives c d (JR false sr) p v q1 -> Derives c d (JR false i) q1 v2 q2 ->
    Derives c d (JN n i (Some (sr, k))) q2 [VSink l] q ->
    Derives c d (JN (S n) i (Some (sr, k))) p [VSink (one v ++ one v2 ++ l)] q
(* combinations: every rule once, in any order; [els] is break_ for partial_combination, which
   ends where no rule fits.  Nothing is chosen if there is a single rule. *)
| D_comb c d t0 dup els rs p vs q : els <> None \/ 2 <= length rs -> Derives c d (JC els rs []) p vs q ->
    Derives c d (JR t0 (RComb dup els rs)) p vs q
| D_comb_one c d t0 dup r p v q : Derives c d (JR false r) p v q ->
    Derives c d (JR t0 (RComb dup None [r])) p [VSink (one v)] q
| D_c_all c d els rs used p : length rs <= length used -> Derives c d (JC els rs used) p [VSink []] p
| D_c_item c d els rs used i r p v q1 l q : length used < length rs -> Pick rs p (Some i) -> nth_error rs i = Some r ->
    ~ In i used -> Derives c d (JR true r) p v q1 -> Derives c d (JC els rs (i :: used)) q1 [VSink l] q ->
    Derives c d (JC els rs used) p [VSink (one v ++ l)] q
| D_c_stop c d rs used p : length used < length rs -> Pick rs p None ->
    Derives c d (JC (Some RBreak) rs used) p [VSink []] p
(* whitespace: as much as there is, no whitespace inside it *)
| D_ws_none c d p : cx_ws c = None -> Derives c d JW p [] p
| D_ws c d w p q : cx_ws c = Some w -> Derives (Cx None 0) 0 (JL (strip_ws w)) p [] q -> Derives c d JW p [] q.

(** The grammar [prods] with the root [p] describes the first [q] units of the input. *)
Definition Accepts (p : nat) (vs : list val) (q : nat) : Prop :=
  let c := Cx (p_ws (prods p)) (p_max (prods p)) in
  exists q0, Derives c 0 JW 0 [] q0 /\ Derives c 0 (JR false (p_rule (prods p))) q0 vs q.
End Lang.

(** The grammars this is about: tokens, sequences, branches, choices, optional rules, loops,
    lists, terminators, try_, recursion, peek, lookahead, position, capture, symbols, flags,
    repeated items, combinations, nested grammars and eof.  Rules for recovery only
    appear where they recover; loop() has a choice, break_ is the end of an alternative of it. *)
Fixpoint described (r : rule) : Prop :=
  let all := fix all (rs : list rule) : Prop :=
    match rs with [] => True | r :: rs => described r /\ all rs end in
  let upto := fix upto (rs : list rule) : Prop :=
    match rs with [] | [RBreak] => True | r :: rs => described r /\ upto rs end in
  let alts := fix alts (rs : list rule) : Prop :=
    match rs with
    | [] => True
    | r :: rs => match r with RBreak => True | RBr b l => described b /\ upto l | _ => described r end /\ alts rs
    end in
  let sep (o : option (rule * sepk)) := match o with Some (r, _) => described r | None => True end in
  let rec (o : option rule) := match o with
    | None | Some (RFind _) => True
    | Some (RReco _ bs) => all bs
    | Some r => described r end in
  match r with
  | RTok _ | RElse | RErr _ _ | RProd _ | RRec _ _ | RRecB _ _ | RPos | REof | RLook _ _ | RSym (RTok _) _ _ | RSub _
  | RCap (RTok _) | RPeek (RTok _) _ | RPeekN (RTok _) _ => True
  | RSeq rs | RChc rs => all rs
  | RBr b rs => described b /\ all rs
  | RLoop (RChc rs) => alts rs
  | RIf b | ROpt b | RWhile b | RMust b _ _ | RNSep b _ | RPosR b | RPas b
  | RFlags b _ _ | RFlag b _ _ => described b
  | ROptT t r => described t /\ described r
  | RLst i s => described i /\ sep s
  | RRep _ n i s => described n /\ described i /\ sep s
  | RLstT t i s _ => described t /\ described i /\ sep s
  | RTryT te r re => match te with Some t => described t | None => True end /\ described r /\ rec re
  | RTry r re => described r /\ rec re
  | RComb _ els rs => all rs /\
      match els with None => 1 <= length rs | Some RBreak | Some (RErr _ _) => True | _ => False end
  | _ => False
  end.

Definition described_grammar (prods : nat -> production) : Prop := forall p,
  described (p_rule (prods p)) /\ forall w, p_ws (prods p) = Some w -> described (strip_ws w).

(** ** Rules that only differ in what does not matter for the language: token kinds and the
    errors tokens report, error tags, recovery and its limits. *)
Definition same_kind (k k' : sepk) : Prop :=
  match k, k' with SErr _, SErr _ | STrail, STrail | SIgnore, SIgnore => True | _, _ => False end.
Inductive alike : rule -> rule -> Prop :=
| A_tok t t' : (forall inp p, tk_try t inp p = tk_try t' inp p) -> alike (RTok t) (RTok t')
| A_cap t t' : (forall inp p, tk_try t inp p = tk_try t' inp p) -> alike (RCap (RTok t)) (RCap (RTok t'))
| A_peek t t' x x' : (forall inp p, tk_try t inp p = tk_try t' inp p) -> alike (RPeek (RTok t) x) (RPeek (RTok t') x')
| A_peekn t t' x x' : (forall inp p, tk_try t inp p = tk_try t' inp p) -> alike (RPeekN (RTok t) x) (RPeekN (RTok t') x')
| A_look f f' x x' : (forall inp p, fd_try f inp p = fd_try f' inp p) -> alike (RLook f x) (RLook f' x')
| A_sym t t' f f' x x' : (forall inp p, tk_try t inp p = tk_try t' inp p) -> (forall l, f l = f' l) ->
    alike (RSym (RTok t) f x) (RSym (RTok t') f' x')
| A_flag r r' a b : alike r r' -> alike (RFlag r a b) (RFlag r' a b)
| A_flags r r' z x x' : alike r r' -> alike (RFlags r z x) (RFlags r' z x')
| A_rep m n n' i i' : alike n n' -> alike i i' -> alike (RRep m n i None) (RRep m n' i' None)
| A_reps m n n' i i' r r' k k' : alike n n' -> alike i i' -> alike r r' -> same_kind k k' ->
    alike (RRep m n i (Some (r, k))) (RRep m n' i' (Some (r', k')))
| A_comb x x' rs rs' : Forall2 alike rs rs' -> alike (RComb x None rs) (RComb x' None rs')
| A_combb x x' rs rs' : Forall2 alike rs rs' -> alike (RComb x (Some RBreak) rs) (RComb x' (Some RBreak) rs')
| A_combe x x' t t' r r' rs rs' : Forall2 alike rs rs' ->
    alike (RComb x (Some (RErr t r)) rs) (RComb x' (Some (RErr t' r')) rs')
| A_else : alike RElse RElse
| A_break : alike RBreak RBreak
| A_loop rs rs' : Forall2 alike rs rs' -> alike (RLoop (RChc rs)) (RLoop (RChc rs'))
| A_err t r t' r' : alike (RErr t r) (RErr t' r')
| A_prod q : alike (RProd q) (RProd q)
| A_rec q t t' : alike (RRec q t) (RRec q t')
| A_recb q t t' : alike (RRecB q t) (RRecB q t')
| A_sub q : alike (RSub q) (RSub q)
| A_pos : alike RPos RPos
| A_eof : alike REof REof
| A_seq rs rs' : Forall2 alike rs rs' -> alike (RSeq rs) (RSeq rs')
| A_chc rs rs' : Forall2 alike rs rs' -> alike (RChc rs) (RChc rs')
| A_br b b' rs rs' : alike b b' -> Forall2 alike rs rs' -> alike (RBr b rs) (RBr b' rs')
| A_if b b' : alike b b' -> alike (RIf b) (RIf b')
| A_opt b b' : alike b b' -> alike (ROpt b) (ROpt b')
| A_while b b' : alike b b' -> alike (RWhile b) (RWhile b')
| A_must b b' t t' r r' : alike b b' -> alike (RMust b t r) (RMust b' t' r')
| A_nsep b b' t t' : alike b b' -> alike (RNSep b t) (RNSep b' t')
| A_posr b b' : alike b b' -> alike (RPosR b) (RPosR b')
| A_pas b b' : alike b b' -> alike (RPas b) (RPas b')
| A_optt t t' r r' : alike t t' -> alike r r' -> alike (ROptT t r) (ROptT t' r')
| A_lst i i' : alike i i' -> alike (RLst i None) (RLst i' None)
| A_lsts i i' r r' k k' : alike i i' -> alike r r' -> (silent_trailing k <-> silent_trailing k') ->
    alike (RLst i (Some (r, k))) (RLst i' (Some (r', k')))
| A_lstt t t' i i' l l' : alike t t' -> alike i i' -> alike (RLstT t i None l) (RLstT t' i' None l')
| A_lstts t t' i i' r r' k k' l l' : alike t t' -> alike i i' -> alike r r' -> (silent_trailing k <-> silent_trailing k') ->
    alike (RLstT t i (Some (r, k)) l) (RLstT t' i' (Some (r', k')) l')
| A_tryt r r' x x' : alike r r' -> alike (RTryT None r x) (RTryT None r' x')
| A_trytt t t' r r' x x' : alike t t' -> alike r r' -> alike (RTryT (Some t) r x) (RTryT (Some t') r' x')
| A_try r r' x x' : alike r r' -> alike (RTry r x) (RTry r' x').

Definition alike_ws (w w' : option rule) : Prop :=
  match w, w' with
  | None, None => True
  | Some w, Some w' => alike (strip_ws w) (strip_ws w')
  | _, _ => False
  end.
Definition alike_grammar (prods prods' : nat -> production) : Prop := forall p,
  alike (p_rule (prods p)) (p_rule (prods' p)) /\ alike_ws (p_ws (prods p)) (p_ws (prods' p)) /\
  p_token (prods p) = p_token (prods' p) /\ p_branch (prods p) = p_branch (prods' p) /\ p_max (prods p) = p_max (prods' p).
