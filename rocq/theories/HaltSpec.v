(** When parsing ends: what is asked of a grammar, and what it then does.
    The relations [Runs], [Takes] and [Matches] are those of [RuleSem]. *)
From Verif Require Import Prelude RuleModel RuleSem RuleInv.
Close Scope N_scope.

(** [P] holds for a rule and everything inside it: its subrules, and the rules of the tokens,
    peeks, errors and whitespace it uses. *)
Fixpoint inside (P : rule -> Prop) (r : rule) : Prop :=
  let iopt (o : option rule) := match o with Some r => inside P r | None => True end in
  let isep (o : option (rule * sepk)) := match o with Some (r, _) => inside P r | None => True end in
  let all := fix all (rs : list rule) : Prop :=
    match rs with [] => True | r :: rs => inside P r /\ all rs end in
  P r /\
  match r with
  | RSeq rs | RChc rs | RReco _ rs => all rs
  | RBr b rs => inside P b /\ all rs
  | RTokOf _ b | RIf b | ROpt b | RNSep b _ | RFlag b _ _ | RCtxPush _ _ b | RPosR b | RCapR b
  | RLoop b | RWhile b | RFlags b _ _ | RPas b | RNoWs b | RWs b | RPeek b _ | RPeekN b _
  | RCap b | RCtxCap _ b | RCtxRem _ b _ | RSym b _ _ => inside P b
  | RErr _ o | RRecW o => iopt o
  | RMust b _ o => inside P b /\ iopt o
  | ROptT t r => inside P t /\ inside P r
  | RLst i sep => inside P i /\ isep sep
  | RLstT t i sep _ => inside P t /\ inside P i /\ isep sep
  | RTryT t r rec => iopt t /\ inside P r /\ iopt rec
  | RTry r rec => inside P r /\ iopt rec
  | RRep _ n i sep => inside P n /\ inside P i /\ isep sep
  | RComb _ els rs => iopt els /\ all rs
  | _ => True
  end.

(** The productions a rule starts with: those its [try_parse] may ask. *)
Fixpoint heads (r : rule) : list nat :=
  match r with
  | RProd q | RRecB q _ => [q]
  | RChc rs => flat_map heads rs
  | RBr b _ | RMust b _ _ | RLst b _ | RTry b _ | RNoWs b | RCtxPush _ _ b | RPosR b | RCapR b
  | RPas b | RRep _ b _ _ => heads b
  | _ => []
  end.

Section Halt.
Variable inp : list N.
Variable prods : nat -> production.
Notation Runs := (Runs inp prods).
Notation Takes := (Takes inp prods).
Notation Matches := (Matches inp prods).

(** The parser has moved on whenever the rule was parsed, ... *)
Definition advances (r : rule) : Prop := forall c s vs s1, pos s <= length inp ->
  Runs c r s (OTrue vs) s1 -> pos s < pos s1.
(** ... whenever it was parsed as the branch that was taken, ... *)
Definition taken_advances (r : rule) : Prop := forall c s vs s1, pos s <= length inp ->
  Takes c r s (OTrue vs) s1 -> pos s < pos s1.
(** ... whenever the branch was taken, even if parsing it failed, ... *)
Definition taken_moves (r : rule) : Prop := forall c s o s1, pos s <= length inp ->
  Takes c r s o s1 -> pos s < pos s1.
(** ... whenever an item of a combination was parsed, ... *)
Definition item_advances (r : rule) : Prop := forall c s i vs s1, pos s <= length inp ->
  Runs c r s (OItem i vs) s1 -> pos s < pos s1.
(** ... whenever the token matched. *)
Definition match_advances (t : rule) : Prop := forall p e, p <= length inp ->
  Matches t p true e -> p < e.

(** Whitespace is skipped by repeating a token, or else the rule as one branch of a loop
    (whitespace.hpp:24-34). *)
Definition ws_moves (w : rule) : Prop :=
  if token_rule (strip_ws w) then match_advances (strip_ws w)
  else advances (chc_or (strip_ws w) RBreak).

(** Every round of a loop moves on. *)
Definition loop_moves (r : rule) : Prop :=
  match r with
  | RLoop b => advances b
  | RWhile b | RFlags b _ _ => taken_advances b
  | RLst i sep =>
      (if is_branch prods i then taken_advances i else advances i) \/
      match sep with Some (sr, _) => taken_advances sr | None => False end
  | RLstT _ i sep _ =>
      advances i /\ (is_branch prods i = true -> taken_advances i) /\
      match sep with Some (sr, _) => taken_moves sr | None => is_branch prods i = true -> taken_moves i end
  | RComb _ els rs => item_advances (comb_choice els rs)
  | RWs w => ws_moves w
  | _ => True
  end.

(** Rules without recursion; [simple] are the productions without recursion. *)
Definition no_recursion (simple : nat -> bool) : rule -> Prop := inside (fun r =>
  match r with
  | RRec _ _ | RRecB _ _ => False
  | RProd q | RSub q => simple q = true
  | _ => True
  end).

(** Tokens, lookahead, whitespace and the rules of errors do not recurse. *)
Definition simple_tokens (simple : nat -> bool) (r : rule) : Prop :=
  match r with
  | RTokOf _ t | RPeek t _ | RPeekN t _ | RCap t | RCtxCap _ t | RCtxRem _ t _ | RSym t _ _
  | RErr _ (Some t) | RMust _ _ (Some t) | RWs t => no_recursion simple t
  | _ => True
  end.

(** What is asked of a grammar: loops move on; a production refers to itself, possibly through
    others, only by recurse and recurse_branch ([rank]); it does not start with itself
    ([hrank]); tokens do not recurse. *)
Definition fine_rule (rank : nat -> nat) (simple : nat -> bool) (p : nat) : rule -> Prop :=
  inside (fun r => loop_moves r /\ simple_tokens simple r /\
                   match r with RProd q | RSub q => rank q < rank p | _ => True end).

Definition fine (rank hrank : nat -> nat) (simple : nat -> bool) : Prop := forall p,
  fine_rule rank simple p (p_rule (prods p)) /\
  (forall w, p_ws (prods p) = Some w -> ws_moves w /\ fine_rule rank simple p w /\ no_recursion simple w) /\
  (forall q, In q (heads (p_rule (prods p))) -> hrank q < hrank p) /\
  (simple p = true -> no_recursion simple (p_rule (prods p))).

(** Parsing the production [p] ends: beyond some amount of fuel the outcome no longer changes,
    and it is not that the fuel ran out. *)
Definition ends (p : nat) : Prop :=
  exists n x, x <> NoFuel /\ forall m, n <= m -> action inp prods m p = x.

(** Parsing [p] never ends. *)
Definition forever (p : nat) : Prop := forall m, action inp prods m p = NoFuel.

(** ** A check that can be read off the grammar *)

(** A token that consumes when it matches. *)
Definition tok_eats (t : token) : Prop := forall p e, p <= length inp -> tk_try t inp p = (true, e) -> p < e.

Section Eats.
(** Productions that consume when they succeed; productions that consume as soon as they are
    taken as a branch. *)
Variable cp cb : nat -> bool.

(** The rule consumes when it succeeds, seen from its form.  [noesc]: parsing goes on after the
    rule if it succeeds, i.e. it has no return_ or break_. *)
Fixpoint eats (r : rule) : Prop :=
  let any := fix any (rs : list rule) : Prop :=
    match rs with [] => False | r :: rs => eats r \/ (noesc r = true /\ any rs) end in
  let all := fix all (rs : list rule) : Prop :=
    match rs with [] => True | r :: rs => eats r /\ all rs end in
  match r with
  | RTok t => tok_eats t
  | RSeq rs => any rs
  | RBr b rs => eats b \/ (noesc b = true /\ any rs)
  | RChc rs => all rs
  | RErr _ _ | RBreak => True
  | RTokOf _ r | RMust r _ _ | RLst r _ | RNoWs r | RRep _ r _ _ | RCtxPush _ _ r | RCtxCap _ r
  | RCtxRem _ r _ | RPosR r | RCap r | RCapR r | RPas r | RSym r _ _ => eats r
  | RProd q | RRec q _ | RRecB q _ | RSub q => cp q = true
  | _ => False
  end.

(** The rule consumes once it is taken as a branch, even if it then fails. *)
Fixpoint grabs (r : rule) : Prop :=
  let all := fix all (rs : list rule) : Prop :=
    match rs with [] => True | r :: rs => grabs r /\ all rs end in
  match r with
  | RTok t => tok_eats t
  | RTokOf _ r | RCap r | RCtxCap _ r | RCtxRem _ r _ | RSym r _ _ => eats r
  | RBr b _ => grabs b
  | RChc rs => all rs
  | RMust r _ _ | RLst r _ | RNoWs r | RRep _ r _ _ | RCtxPush _ _ r | RPosR r | RCapR r
  | RPas r => grabs r
  | RProd q => cb q = true
  | _ => False
  end.

Definition sure : Prop := forall q,
  (cp q = true -> eats (p_rule (prods q))) /\ (cb q = true -> grabs (p_rule (prods q))).

(** Loops whose rounds consume. *)
Definition loop_eats (r : rule) : Prop :=
  match r with
  | RLoop b | RWhile b | RFlags b _ _ => eats b
  | RLst i sep => eats i \/ match sep with Some (sr, _) => eats sr | None => False end
  | RLstT _ i sep _ =>
      eats i /\ match sep with Some (sr, _) => grabs sr | None => is_branch prods i = true -> grabs i end
  | RComb _ els rs => eats (comb_choice els rs)
  | RWs w => eats (strip_ws w)
  | _ => True
  end.

(** The grammar check of [fine], with [loop_eats]. *)
Definition checked_rule (rank : nat -> nat) (simple : nat -> bool) (p : nat) : rule -> Prop :=
  inside (fun r => loop_eats r /\ simple_tokens simple r /\
                   match r with RProd q | RSub q => rank q < rank p | _ => True end).

Definition checked (rank hrank : nat -> nat) (simple : nat -> bool) : Prop := sure /\ forall p,
  checked_rule rank simple p (p_rule (prods p)) /\
  (forall w, p_ws (prods p) = Some w -> eats (strip_ws w) /\ checked_rule rank simple p w /\ no_recursion simple w) /\
  (forall q, In q (heads (p_rule (prods p))) -> hrank q < hrank p) /\
  (simple p = true -> no_recursion simple (p_rule (prods p))).

End Eats.
End Halt.
