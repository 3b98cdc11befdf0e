(** Model of the callbacks and sinks that handle several values: containers, folds, [collect],
    aggregates, [bind] and composition.
    Source: include/lexy/callback/container.hpp, fold.hpp, adapter.hpp, aggregate.hpp,
    bind.hpp, composition.hpp, base.hpp.

    Overload resolution is not modelled: which overload is called is part of the argument. *)
From Verif Require Import Prelude.
Set Implicit Arguments.

(** ** Sinks *)

(** base.hpp:37-49, and how a sink is used: [.sink(...)] makes a sink callback, which is called
    any number of times, then [std::move(cb).finish()].  [W] is the state of the world that the
    functions of the user can read and change, so the order and number of their calls matter;
    [A] are the arguments of one call. *)
Record sink (W A R : Type) := Sink {
  sk_state : Type;
  sk_make : W -> W * sk_state;
  sk_call : W -> sk_state -> A -> W * sk_state;
  sk_finish : W -> sk_state -> W * R }.

Fixpoint sink_calls {W A R} (s : sink W A R) (w : W) (st : sk_state s) (args : list A)
  : W * sk_state s :=
  match args with
  | [] => (w, st)
  | a :: args' => let '(w', st') := sk_call s w st a in sink_calls s w' st' args'
  end.
Definition sink_run {W A R} (s : sink W A R) (w : W) (args : list A) : W * R :=
  let '(w1, st) := sk_make s w in
  let '(w2, st') := sink_calls s w1 st args in
  sk_finish s w2 st'.

(** adapter.hpp:76-97 [_cb_from_sink]: the fold expression over the arguments, each passed
    alone. *)
Definition cb_from_sink {W A R} (s : sink W A R) (w : W) (args : list A) : W * R :=
  let '(w', cb) := fold_left (fun wc a => sk_call s (fst wc) (snd wc) a) args (sk_make s w) in
  sk_finish s w' cb.

(** ** Containers *)

(** A sequence container: its elements, its capacity and its allocator. *)
Record container (A : Type) := Container { c_items : list A; c_capacity : nat; c_alloc : nat }.
Definition c_default {A} (al : nat) : container A := Container [] 0 al.
Definition c_reserve {A} (n : nat) (c : container A) : container A :=
  Container (c_items c) (Nat.max n (c_capacity c)) (c_alloc c).
(** [push_back] and [emplace_back] with one argument. *)
Definition c_push {A} (c : container A) (x : A) : container A :=
  Container (c_items c ++ [x]) (Nat.max (c_capacity c) (S (length (c_items c)))) (c_alloc c).
(** [append(Container&&)]. *)
Definition c_append {A} (c d : container A) : container A :=
  Container (c_items c ++ c_items d)
            (Nat.max (c_capacity c) (length (c_items c) + length (c_items d))) (c_alloc c).

(** Which of the optional functions the container has (container.hpp:13-20). *)
Record features := Features { has_reserve : bool; has_append : bool }.

(** The arguments of one call of the sink: [push_back] of one value, or [emplace_back]
    constructing an element from several; [make] is the constructor. *)
Section Containers.
Variables (W A B : Type).   (* B: constructor arguments *)
Variable make : B -> A.

(** container.hpp:28-51 [_list_sink], l.137-146 [_list::sink], also with an allocator and
    l.94-98 [_list_alloc::sink]. *)
Definition list_sink (al : nat) : sink W B (container A) :=
  Sink (fun w => (w, c_default al))
       (fun w c x => (w, c_push c (make x)))
       (fun w c => (w, c)).

(** The callback: an existing container, nullopt, or elements. *)
Inductive list_args := LContainer (c : container A) | LNullopt | LElements (xs : list B).
(** container.hpp:106-134 [_list::operator()], l.61-87 [_list_alloc::_with_state]. *)
Definition list_cb (f : features) (al : nat) (args : list_args) : container A :=
  match args with
  | LContainer c => c
  | LNullopt => c_default al
  | LElements xs =>
    let result := c_default al in
    let result := if has_reserve f then c_reserve (length xs) result else result in
    fold_left (fun c x => c_push c (make x)) xs result
  end.

(** *** Collections.  [key] says which elements are the same for the container; a container that
    allows several of them ([multi]) keeps all. *)
Variables (same : A -> A -> bool) (multi : bool).
(** [insert] and [emplace]: an existing element is kept. *)
Definition c_insert (c : container A) (x : A) : container A :=
  if multi then c_push c x
  else if existsb (same x) (c_items c) then c else c_push c x.

(** container.hpp:168-191 [_collection_sink], l.278-287. *)
Definition collection_sink (al : nat) : sink W B (container A) :=
  Sink (fun w => (w, c_default al))
       (fun w c x => (w, c_insert c (make x)))
       (fun w c => (w, c)).
(** container.hpp:246-275 [_collection::operator()], l.201-227. *)
Definition collection_cb (f : features) (al : nat) (args : list_args) : container A :=
  match args with
  | LContainer c => c
  | LNullopt => c_default al
  | LElements xs =>
    let result := c_default al in
    let result := if has_reserve f then c_reserve (length xs) result else result in
    fold_left (fun c x => c_insert c (make x)) xs result
  end.

(** *** concat *)

(** container.hpp:331-341 and 368-391: append the elements of one container. *)
Definition concat_append (f : features) (head c : container A) : container A :=
  if has_append f then c_append head c
  else fold_left c_push (c_items c) head.
(** container.hpp:318-346 [_concat::_call]. *)
Definition concat_call (f : features) (head : container A) (tail : list (container A)) : container A :=
  match tail with
  | [] => head
  | _ =>
    let head :=
      if has_reserve f
      then c_reserve (fold_left (fun n c => n + length (c_items c))%nat tail (length (c_items head))) head
      else head in
    fold_left (concat_append f) tail head
  end.
(** container.hpp:313-316, 348-352 [_concat::operator()]; at least one argument. *)
Definition concat_cb (f : features) (args : option (container A * list (container A))) : container A :=
  match args with
  | None => c_default 0      (* nullopt *)
  | Some (head, tail) => concat_call f head tail
  end.
(** container.hpp:354-392 [_concat::_sink::operator()]. *)
Definition concat_sink_call (f : features) (result c : container A) : container A :=
  match c_items result with
  | [] => c                                                          (* l.362-367 *)
  | _ =>
    if has_append f then c_append result c
    else
      let total := (length (c_items result) + length (c_items c))%nat in
      let result :=
        if has_reserve f then
          if (c_capacity result <? total)%nat then
            if (2 * c_capacity result <? total)%nat then c_reserve total result
            else c_reserve (2 * c_capacity result) result
          else result
        else result in
      fold_left c_push (c_items c) result
  end.
Definition concat_sink (f : features) : sink W (container A) (container A) :=
  Sink (fun w => (w, c_default 0))
       (fun w r c => (w, concat_sink_call f r c))
       (fun w r => (w, r)).
End Containers.
Arguments LNullopt {A B}.
Arguments LContainer {A B}. Arguments LElements {A B}.

(** ** collect, fold, count *)
Section Folds.
Variables (W B : Type).    (* B: the arguments of one call *)

(** container.hpp:413-440 [_collect_sink<Container, Callback>], l.468-486; the callback of the
    user has an effect on the world. *)
Definition collect_sink {A} (callback : W -> B -> W * A) (al : nat) : sink W B (container A) :=
  Sink (fun w => (w, c_default al))
       (fun w c x => let '(w', v) := callback w x in (w', c_push c v))
       (fun w c => (w, c)).
(** container.hpp:441-466 [_collect_sink<void, Callback>]; [std::size_t] does not overflow. *)
Definition collect_void_sink (callback : W -> B -> W) : sink W B nat :=
  Sink (fun w => (w, 0%nat))
       (fun w n x => (callback w x, S n))
       (fun w n => (w, n)).

(** fold.hpp:28-63 [_fold]: [init] is [T(_init)] or the call [_init()].  In place, the
    operation changes its first argument. *)
Inductive fold_op (T : Type) :=
| Fold (op : W -> T -> B -> W * T)           (* result = op(std::move(result), args...) *)
| FoldInplace (op : W -> T -> B -> W * T).   (* op(result, args...): the second component is the
                                                value of [result] afterwards *)
Definition fold_sink {T} (init : W -> W * T) (op : fold_op T) : sink W B T :=
  Sink init
       (fun w r x => match op with
                     | Fold f => f w r x
                     | FoldInplace f => f w r x
                     end)
       (fun w r => (w, r)).
(** fold.hpp:87-88 [count]. *)
Definition count_sink : sink W B nat :=
  fold_sink (fun w => (w, 0%nat)) (FoldInplace (fun w n _ => (w, S n))).
End Folds.

(** ** as_aggregate *)
Section Aggregate.
Variables (W T M V : Type).                 (* M: members, V: values *)
Variable assign : M -> T -> V -> T.         (* the function of [lexy::member<Fn>] *)
Variable zero : T.                          (* T{} *)

(** aggregate.hpp:20-27 and the recursion l.29-41. *)
Inductive agg_args := AggNullopt | AggObject (t : T) (ms : list (M * V)) | AggMembers (ms : list (M * V)).
Fixpoint agg_rest (result : T) (ms : list (M * V)) : T :=
  match ms with
  | [] => result
  | (m, v) :: ms' => agg_rest (assign m result v) ms'
  end.
Definition agg_cb (args : agg_args) : T :=
  match args with
  | AggNullopt => zero
  | AggObject t ms => agg_rest t ms
  | AggMembers [] => zero   (* not callable without arguments; [operator()(nullopt)] instead *)
  | AggMembers ((m, v) :: ms) => agg_rest (assign m zero v) ms
  end.
(** aggregate.hpp:43-63 [_sink]. *)
Definition agg_sink : sink W (M * V) T :=
  Sink (fun w => (w, zero))
       (fun w r mv => (w, assign (fst mv) r (snd mv)))
       (fun w r => (w, r)).
End Aggregate.
Arguments AggMembers {T M V}. Arguments AggObject {T M V}. Arguments AggNullopt {T M V}.

(** ** bind *)
Section Bind.
Variables (V S R : Type).        (* values, the parse state, the result *)
(** An argument: a value, or [lexy::nullopt] (the type decides, bind.hpp:121). *)
Inductive arg := Val (v : V) | Nullopt.

(** The bound arguments: values that are not placeholders, [values], [nth_value<N>] (1-based)
    with or without fallback and [map], [parse_state] with or without [map]. *)
Inductive bound :=
| BValue (a : arg)
| BAll
| BNth (n : nat) (fallback : option arg) (fn : option (arg -> arg))
| BState (fn : S -> arg).        (* without map: the identity *)

(** bind.hpp:119-132, 140-159, 167-188, 197-205: the four versions of [_nth_value::operator()];
    [None] is a failing static assertion. *)
Definition nth_call (n : nat) (fallback : option arg) (fn : option (arg -> arg)) (args : list arg)
  : option arg :=
  match fallback, fn with
  | Some fb, Some f =>                                               (* fallback + map *)
    if (length args <? n)%nat then Some fb
    else match nth_error args (n - 1) with
         | Some Nullopt => Some fb
         | Some a => Some (f a)
         | None => None
         end
  | Some fb, None =>                                                 (* fallback only *)
    if (length args <? n)%nat then Some fb
    else match nth_error args (n - 1) with
         | Some Nullopt => Some fb
         | Some a => Some a
         | None => None
         end
  | None, Some f =>                                                  (* map only *)
    if (n <=? length args)%nat then option_map f (nth_error args (n - 1)) else None
  | None, None =>
    if (n <=? length args)%nat then nth_error args (n - 1) else None
  end.
(** bind.hpp:18-26 [expand_bound_arg], l.245-256, 258-267 [_parse_state]; no state is
    [no_bind_state].  [values] is not a placeholder for this function. *)
Definition expand_bound_arg (b : bound) (state : option S) (args : list arg) : option arg :=
  match b with
  | BValue a => Some a
  | BAll => None
  | BNth n fb fn => nth_call n fb fn args
  | BState fn => option_map fn state
  end.

Definition is_all (b : bound) : bool := match b with BAll => true | _ => false end.

(** bind.hpp:34-68 [_invoke_bound], with the produced arguments as accumulator. *)
Fixpoint invoke_all (fn : list arg -> R) (bs : list bound) (state : option S) (args produced : list arg)
  : option R :=
  match bs with
  | [] => Some (fn produced)
  | b :: bs' =>
    if is_all b then invoke_all fn bs' state args (produced ++ args)
    else match expand_bound_arg b state args with
         | Some a => invoke_all fn bs' state args (produced ++ [a])
         | None => None
         end
  end.
Fixpoint expand_each (bs : list bound) (state : option S) (args : list arg) : option (list arg) :=
  match bs with
  | [] => Some []
  | b :: bs' =>
    match expand_bound_arg b state args, expand_each bs' state args with
    | Some a, Some l => Some (a :: l)
    | _, _ => None
    end
  end.
(** bind.hpp:70-93 [invoke_bound]. *)
Definition invoke_bound (fn : list arg -> R) (bs : list bound) (state : option S) (args : list arg)
  : option R :=
  if existsb is_all bs then invoke_all fn bs state args []
  else option_map fn (expand_each bs state args).

(** bind.hpp:281-317 [_bound_cb], with and without state. *)
Definition bind_call := invoke_bound.
(** bind.hpp:342-369 [_bound_sink::sink]: the state, or without state only if there is no
    placeholder; no arguments. *)
Definition is_placeholder (b : bound) : bool := match b with BValue _ => false | _ => true end.
Definition bind_sink (fn : list arg -> R) (bs : list bound) (state : option S) : option R :=
  if existsb is_all bs then None                                      (* static_assert l.377 *)
  else
    match state with
    | Some _ => invoke_bound fn bs state []
    | None => if existsb is_placeholder bs then None else invoke_bound fn bs None []
    end.
End Bind.
Arguments Val {V}. Arguments Nullopt {V}.
Arguments BValue {V S}. Arguments BAll {V S}. Arguments BNth {V S}. Arguments BState {V S}.

(** ** Composition *)
Section Compose.
Variables (S V : Type).
(** A callback: what it does without the parse state, and what [cb[state]] does if there is
    such an operator; [None] is an argument list it cannot be called with. *)
Record callback := Callback {
  cb_plain : list V -> option V;
  cb_state : option (S -> list V -> option V) }.

(** composition.hpp:10-37 [_compose_state].  This also is how a production calls its callback
    if there is a state (action/base.hpp [production_value_callback]). *)
Definition call_with (s : S) (c : callback) (args : list V) : option V :=
  match cb_state c with
  | Some f => f s args
  | None => cb_plain c args
  end.
Definition then_ (r : option V) (g : list V -> option V) : option V :=
  match r with Some v => g [v] | None => None end.
Definition is_state_cb (c : callback) : bool := match cb_state c with Some _ => true | None => false end.
(** composition.hpp:39-66 [_compose_cb]. *)
Definition compose (f g : callback) : callback :=
  Callback (fun args => then_ (cb_plain f args) (cb_plain g))
           (if is_state_cb f || is_state_cb g
            then Some (fun s args => then_ (call_with s f args) (call_with s g))
            else None).

(** composition.hpp:68-92 [_compose_s], l.112-118 [operator>>]; [K] are the sinks. *)
Variable K : Type.
Record composed := Composed { cs_sink : K; cs_cb : callback }.
Definition compose_sink (k : K) (c : callback) : composed := Composed k c.
(** composition.hpp:104-109: [operator|] for it. *)
Definition composed_then (c : composed) (g : callback) : composed :=
  Composed (cs_sink c) (compose (cs_cb c) g).
End Compose.
Arguments Callback {S V}.
