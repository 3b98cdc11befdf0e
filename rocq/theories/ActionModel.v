(** The actions: what match, validate, parse and parse_as_tree make of the events of a parse.

    Sources: include/lexy/action/{base,match,validate,parse,parse_as_tree}.hpp.

    An action runs [do_action] with its own event handler.  A handler only sees events and never
    influences the parsers (every [on] returns void, or a marker that is handed back unchanged),
    so the handlers are folds over the event list that [RuleModel.action] produces.
    The tree itself is the subject of the parse tree model; here only what decides the status. *)
From Verif Require Import Prelude RuleModel.
Close Scope N_scope.

(** *** match: class _mh, match.hpp:11-43 *)
Definition mh_on (failed : bool) (e : event) : bool :=
  match e with EError _ _ _ => true | _ => failed end.

(** _mh::get_result, match.hpp:34-38. *)
Definition mh_result (failed rule_result : bool) : bool := rule_result && negb failed.

(** *** validate: class _vh, validate.hpp:166-268 *)

(** What the error callback is told: error_context's production and position, validate.hpp:139-164,
    and the error itself. *)
Record report := Report { r_prod : nat; r_begin : nat; r_tag : etag; r_from : nat; r_to : nat }.

(** The chain of active event handlers ([_top], [_prev]) with their [_info] and [_begin], and the
    errors given to the sink so far, in order. *)
Record vstate := VState { v_top : list (nat * nat); v_errors : list report }.

(** event_handler::get_info, validate.hpp:239-245: the innermost production that is not
    transparent; the outermost one if there is none. *)
Fixpoint get_info (transparent : nat -> bool) (top : list (nat * nat)) : nat :=
  match top with
  | [] => 0
  | [(q, _)] => q
  | (q, _) :: rest => if transparent q then get_info transparent rest else q
  end.

(** event_handler::on, validate.hpp:183-232. *)
Definition vh_on (transparent : nat -> bool) (v : vstate) (e : event) : vstate :=
  match e with
  | EPStart q p => VState ((q, p) :: v_top v) (v_errors v)
  | EPFinish _ _ | EPCancel _ _ => VState (tl (v_top v)) (v_errors v)
  | EError t b e =>
      VState (v_top v)
        (v_errors v ++ [Report (get_info transparent (v_top v))
                               (match v_top v with (_, p) :: _ => p | [] => 0 end) t b e])
  | _ => v
  end.

Inductive status := Success | Recovered | Fatal.

(** validate_result's constructor, validate.hpp:95-104. *)
Definition status_of (did_recover : bool) (errors : nat) : status :=
  if errors =? 0 then Success else if did_recover then Recovered else Fatal.

(** Running an action: the handler is folded over the events; [None] stands for a parse that does
    not end or violates an assertion. *)
Definition rule_result (o : out) : bool := match o with OTrue _ => true | _ => false end.

Section Actions.
Variable inp : list N.
Variable prods : nat -> production.
Variable transparent : nat -> bool.

Definition run {A} (f : bool -> list val -> list event -> A) (r : res) : option A :=
  match r with
  | Res o s _ => Some (f (rule_result o) (match o with OTrue vs => vs | _ => [] end) (rev (trace s)))
  | _ => None
  end.

(** lexy::match, match.hpp:70-85. *)
Definition match_of (ok : bool) (_ : list val) (es : list event) : bool :=
  mh_result (fold_left mh_on es false) ok.

Definition vh_of (es : list event) : vstate := fold_left (vh_on transparent) es (VState [] []).

(** lexy::validate: status and errors. *)
Definition validate_of (ok : bool) (_ : list val) (es : list event) : status * list report :=
  let v := vh_of es in (status_of ok (length (v_errors v)), v_errors v).

(** lexy::parse: class _ph, parse.hpp:100-140, and do_action, base.hpp:240-247: the value is there
    if final_parser was reached. *)
Definition parse_of (ok : bool) (vs : list val) (es : list event)
  : status * list report * option (list val) :=
  (validate_of ok vs es, if ok then Some vs else None).

(** lexy::parse_as_tree: class _pth, parse_as_tree.hpp:14-134.  [_depth] and the embedded [_vh];
    tokens and grammar events are not forwarded to it.  [None]: a precondition is violated
    (parse_as_tree.hpp:33, 39, 49 and 129); without assertions the tree built so far is lost. *)
Definition pth_on (t : option (nat * vstate)) (e : event) : option (nat * vstate) :=
  match t with
  | None => None
  | Some (d, v) =>
      match e with
      | EGStart _ | EGFinish _ | EGCancel _ => if d =? 0 then Some (d, v) else None
      | EToken _ _ _ => Some (d, v)
      | EPStart _ _ => Some (S d, vh_on transparent v e)
      | EPFinish _ _ | EPCancel _ _ => Some (pred d, vh_on transparent v e)
      | _ => Some (d, vh_on transparent v e)
      end
  end.

(** Every grammar event except the outermost start comes between production events, so the order
    in [do_action] matters: production_finish precedes grammar_finish (base.hpp:207-216). *)
Definition tree_of (ok : bool) (_ : list val) (es : list event) : option (status * list report) :=
  match fold_left pth_on es (Some (0, VState [] [])) with
  | Some (0, v) => Some (status_of ok (length (v_errors v)), v_errors v)
  | _ => None
  end.

Definition do_match (n p : nat) := run match_of (action inp prods n p).
Definition do_validate (n p : nat) := run validate_of (action inp prods n p).
Definition do_parse (n p : nat) := run parse_of (action inp prods n p).
Definition do_tree (n p : nat) := run tree_of (action inp prods n p).

End Actions.
