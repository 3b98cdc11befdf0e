(** Specification vocabulary for the rule engine: what it means for a stream of parse events to
    tile the input, to be properly nested, to report an error.  Nothing here refers to how the
    engine works; only to events, positions and the shape of rules. *)
From Verif Require Import Prelude RuleModel.
Close Scope N_scope.

(** The token events of [es], read from position [p], are contiguous; the result is where the
    last one ends. *)
Fixpoint tile (p : nat) (es : list event) : option nat :=
  match es with
  | [] => Some p
  | EToken _ b e :: es => if (b =? p) && (b <=? e) then tile e es else None
  | _ :: es => tile p es
  end.

(** The ranges of the token events, in order. *)
Fixpoint tokens (es : list event) : list (nat * nat) :=
  match es with
  | [] => []
  | EToken _ b e :: es => (b, e) :: tokens es
  | _ :: es => tokens es
  end.

(** Each range begins where the previous one ended. *)
Inductive contiguous : nat -> list (nat * nat) -> nat -> Prop :=
| contig_nil p : contiguous p [] p
| contig_cons p e ts q : p <= e -> contiguous e ts q -> contiguous p ((p, e) :: ts) q.

(** Nesting: grammars, productions and recoveries that have been started and not yet ended. *)
Inductive frame := FG | FP (q : nat) | FR.

Definition nest1 (e : event) (stk : list frame) : option (list frame) :=
  match e, stk with
  | EGStart _, _ => Some (FG :: stk)
  | EPStart q _, _ => Some (FP q :: stk)
  | ERStart _, _ => Some (FR :: stk)
  | (EGFinish _ | EGCancel _), FG :: stk => Some stk
  | (EPFinish q _ | EPCancel q _), FP q' :: stk => if q =? q' then Some stk else None
  | (ERFinish _ | ERCancel _), FR :: stk => Some stk
  | (EToken _ _ _ | EBack _ _ | EError _ _ _), _ => Some stk
  | _, _ => None
  end.

Fixpoint nest (es : list event) (stk : list frame) : option (list frame) :=
  match es with
  | [] => Some stk
  | e :: es => match nest1 e stk with Some stk => nest es stk | None => None end
  end.

(** Every start has its end, in the right order, and nothing else is ended. *)
Definition balanced (es : list event) : Prop := forall stk, nest es stk = Some stk.

(** The positions of an event lie in an input of length [n].  Nothing is said about the debug
    events that accompany a branch that was not taken. *)
Definition ev_in (n : nat) (e : event) : Prop :=
  match e with
  | EToken _ b e | EError _ b e => b <= e /\ e <= n
  | EGStart p | EGFinish p | EGCancel p | EPFinish _ p | ERStart p | ERFinish p | ERCancel p => p <= n
  | EPStart _ _ | EPCancel _ _ | EBack _ _ => True
  end.

(** Context variables, newest first: [l'] is [l] after assignments.  Variables are neither added
    nor removed, and only the newest one of each name may have another value; [h] are the names
    of newer variables that are not in the list. *)
Fixpoint assigned (h : list nat) (l l' : list (nat * val)) : Prop :=
  match l, l' with
  | [], [] => True
  | (i, v) :: l, (i', v') :: l' => i' = i /\ (In i h -> v' = v) /\ assigned (i :: h) l l'
  | _, _ => False
  end.

(** The events a cancelled branch may leave: backtracked ranges, and productions that were
    started and cancelled. *)
Inductive debug : list event -> Prop :=
| debug_nil : debug []
| debug_back b e es : debug es -> debug (EBack b e :: es)
| debug_prod q p es es' : debug es -> debug es' -> debug (EPStart q p :: es ++ EPCancel q p :: es').

(** The events of a piece of parsing from position [p] to position [q]: tokens follow each other
    without gaps, and productions start and end where the tokens before the start or end ended.
    Productions of a branch that was not taken are the exception: they start and end at the same
    position, wherever that is. *)
Inductive segment : nat -> list event -> nat -> Prop :=
| seg_nil p : segment p [] p
| seg_token p k e es q : p <= e -> segment e es q -> segment p (EToken k p e :: es) q
| seg_other p e es q :
    match e with EToken _ _ _ | EPStart _ _ | EPFinish _ _ | EPCancel _ _ => False | _ => True end ->
    segment p es q -> segment p (e :: es) q
| seg_finish p a es r es' q : segment p es r -> segment r es' q ->
    segment p (EPStart a p :: es ++ EPFinish a r :: es') q
| seg_cancel p a es r es' q : segment p es r -> segment r es' q ->
    segment p (EPStart a p :: es ++ EPCancel a r :: es') q
| seg_untaken p a x es es' q : debug es -> segment p es' q ->
    segment p (EPStart a x :: es ++ EPCancel a x :: es') q.

(** The error events, in order. *)
Fixpoint errors (es : list event) : list (etag * nat * nat) :=
  match es with
  | [] => []
  | EError t b e :: es => (t, b, e) :: errors es
  | _ :: es => errors es
  end.

Definition has_error (es : list event) : bool := existsb is_err es.

(** [weak r]: somewhere in [r] a recovery rule (find, recover) is used outside the recovery
    position of a try_.  Such a rule may fail without an error, by documentation. *)
Fixpoint weak (r : rule) : bool :=
  match r with
  | RFind _ | RReco _ _ | RRecW _ => true
  | RSeq rs | RChc rs => existsb weak rs
  | RBr c rs => weak c || existsb weak rs
  | RIf b | ROpt b | RMust b _ _ | RLoop b | RWhile b | RNSep b _ | RWs b | RNoWs b
  | RFlags b _ _ | RFlag b _ _ | RCtxPush _ _ b | RPosR b | RCapR b | RPas b | RTry b _ => weak b
  | ROptT t r => weak t || weak r
  | RLst i sep => weak i || match sep with Some (r, _) => weak r | None => false end
  | RLstT t i sep _ => weak t || weak i || match sep with Some (r, _) => weak r | None => false end
  | RTryT t r _ => weak r || match t with Some t => weak t | None => false end
  | RRep _ c i sep => weak c || weak i || match sep with Some (r, _) => weak r | None => false end
  | RComb _ els rs => existsb weak rs || match els with Some e => weak e | None => false end
  | _ => false
  end.

(** A grammar that uses find and recover only to recover. *)
Definition guarded (prods : nat -> production) : Prop :=
  forall p, weak (p_rule (prods p)) = false /\
            (forall w, p_ws (prods p) = Some w -> weak w = false).
