(** Model of the scanner: [lexy::scan] and [dsl::scan].
    Source: include/lexy/dsl/scan.hpp, include/lexy/action/scan.hpp. *)
From Verif Require Import Prelude RuleModel ActionModel.
Close Scope N_scope.

(** The rules the user gives to the scanner are the rules of [RuleModel], the scanner's context
    is one of [RuleModel].  What the program of the user does between the operations of the
    scanner is arbitrary.  Calls on a guard that does not exist cannot be written. *)

(** scan.hpp:412-417. *)
Inductive sstate := Normal | Failed | Recovering.
(** The reader and the control block ([sc_st]), [_state], and how many recovery guards have been
    made and not yet finished or cancelled (only used to rule out calls on guards that do not
    exist). *)
Record scanner := Scanner { sc_st : st; sc_state : sstate; sc_guards : nat }.
(** A [scan_result]: the value, if there is one (scan.hpp:43-89; [VAs] as for parse_as). *)
Definition scan_result := option val.

(** The operations: [parse(result, rule)], [branch(result, rule)] with the value [result] has
    before; [discard(token)], [error(tag, begin, end)], [fatal_error(tag, begin, end)],
    [error_recovery()], [guard.finish()], [guard.cancel()]. *)
Inductive op :=
| OParse (result : scan_result) (r : rule)
| OBranch (result : scan_result) (r : rule)
| ODiscard (t : rule)
| OError (t : etag) (b e : nat)
| OFatal (t : etag) (b e : nat)
| ORecover
| OFinish
| OCancel.
(** scan.hpp:361-367 [peek], l.369-382 [integer], l.384-397 [capture], l.353-360 and 213-231 the
    versions that return the result or have none. *)
Definition OPeek (r : rule) : op := OBranch None (RPeek r TPeek).
Definition OParseT (r : rule) : op := OParse None r.
Definition OCapture (t : rule) : op := OParse None (RCap t).
Definition OCaptureProd (p : nat) : op := OParse None (RCapR (RProd p)).

(** What an operation tells: the bool it returns (true if it returns nothing) and the value that
    [result] has now. *)
Record answer := Answer { a_bool : bool; a_result : scan_result }.
Inductive sres := SRes (a : answer) (sc : scanner) | SNoFuel | SCrash.

(** scan_final_parser, scan.hpp:147-163: the argument of the continuation of [_pas] replaces the
    value. *)
Definition scan_final (result : scan_result) (vs : list val) : scan_result :=
  match vs with v :: _ => Some v | [] => result end.

(** The outcome of the parser: [success] is false for [OFalse] only; break_ and the end of a
    combination item cannot be reached here (see [delim] in [RuleModel]). *)
Definition scan_after (sc : scanner) (result : scan_result) (r : res) : sres :=
  match r with
  | Res (OTrue vs) s _ =>
    SRes (Answer true (scan_final result vs)) (Scanner s (sc_state sc) (sc_guards sc))
  | Res OFalse s _ => SRes (Answer true result) (Scanner s Failed (sc_guards sc))
  | Res _ _ _ => SCrash
  | NoFuel => SNoFuel
  | Crash => SCrash
  end.

Section Scan.
Variable inp : list N.
Variable prods : nat -> production.
Variable E : engine.
Variable c : cx.

Definition is_failed (s : sstate) : bool := match s with Failed => true | _ => false end.
(** operator bool, scan.hpp:175-178. *)
Definition sc_ok (sc : scanner) : bool := match sc_state sc with Normal => true | _ => false end.
(** scan.hpp:185-188 [position]. *)
Definition sc_pos (sc : scanner) : nat := pos (sc_st sc).

(** scan.hpp:199-211; for a result without value type, a value stands for [has_value()]. *)
Definition sc_parse (sc : scanner) (result : scan_result) (r : rule) : sres :=
  if is_failed (sc_state sc) then SRes (Answer true result) sc
  else scan_after sc result (e_parse E c (RPas r) final (sc_st sc) []).

(** scan.hpp:233-254. *)
Definition sc_branch (sc : scanner) (result : scan_result) (r : rule) : sres :=
  if is_failed (sc_state sc) then SRes (Answer false result) sc
  else
    match e_try E (RPas r) (vars (sc_st sc)) (pos (sc_st sc)) with
    | BR false b =>
      match e_cancel E (RPas r) b with
      | Some es => SRes (Answer false result) (Scanner (emits es (sc_st sc)) (sc_state sc) (sc_guards sc))
      | None => SNoFuel
      end
    | BR true b => scan_after sc result (e_finish E c (RPas r) b final (sc_st sc) [])
    | BNoFuel => SNoFuel
    | BCrash => SCrash
    end.

(** scan.hpp:308-323; lexy::try_match_token, dsl/base.hpp:244-272: the reader only moves if the
    token matches. *)
Definition sc_discard (sc : scanner) (t : rule) : sres :=
  if is_failed (sc_state sc) then SRes (Answer false None) sc
  else
    let s := sc_st sc in
    match tmatch inp E t (pos s) with
    | TR ok e =>
      let e := if ok then e else pos s in
      SRes (Answer ok None)
           (Scanner (setpos e (emit (EToken KError (pos s) e) s)) (sc_state sc) (sc_guards sc))
    | TNoFuel => SNoFuel
    | TCrash => SCrash
    end.

(** scan.hpp:325-337 [error], l.339-351 [fatal_error]. *)
Definition sc_error (sc : scanner) (t : etag) (b e : nat) : scanner :=
  Scanner (emit (EError t b e) (sc_st sc)) (sc_state sc) (sc_guards sc).

Definition unit_ans : answer := Answer true None.

Definition sc_op (sc : scanner) (o : op) : sres :=
  match o with
  | OParse result r => sc_parse sc result r
  | OBranch result r => sc_branch sc result r
  | ODiscard t => sc_discard sc t
  | OError t b e => SRes unit_ans (sc_error sc t b e)
  | OFatal t b e =>
    let sc := sc_error sc t b e in SRes unit_ans (Scanner (sc_st sc) Failed (sc_guards sc))
  | ORecover => (* l.302-306, 291-296 *)
    if is_failed (sc_state sc)
    then SRes unit_ans (Scanner (emit (ERStart (sc_pos sc)) (sc_st sc)) Recovering (S (sc_guards sc)))
    else SCrash                                                  (* LEXY_PRECONDITION *)
  | OFinish => (* l.283-288 *)
    match sc_guards sc with
    | O => SCrash
    | S g => SRes unit_ans (Scanner (emit (ERFinish (sc_pos sc)) (sc_st sc)) Normal g)
    end
  | OCancel => (* l.276-281 *)
    match sc_guards sc with
    | O => SCrash
    | S g => SRes unit_ans (Scanner (emit (ERCancel (sc_pos sc)) (sc_st sc)) Failed g)
    end
  end.

(** A program of the user: it sees the answers and can ask for the state and the position at any
    time; it ends with a [scan_result] ([None]: scan_failed). *)
Inductive prog :=
| PRet (result : scan_result)
| PDo (o : op) (next : answer -> bool -> nat -> prog).

Inductive pres := PRes (result : scan_result) (sc : scanner) | PNoFuel | PCrash.
Fixpoint sc_run (u : prog) (sc : scanner) : pres :=
  match u with
  | PRet result => PRes result sc
  | PDo o next =>
    match sc_op sc o with
    | SRes a sc' => sc_run (next a (sc_ok sc') (sc_pos sc')) sc'
    | SNoFuel => PNoFuel
    | SCrash => PCrash
    end
  end.

(** dsl::scan, scan.hpp:466-502: [u] is the production's [scan] function applied to the
    arguments; they are not passed on.  [void]: the value type is void. *)
Definition scan_rule (void : bool) (u : list val -> prog) (k : cont) (s : st) (args : list val) : res :=
  match sc_run (u args) (Scanner s Normal 0) with
  | PRes result sc =>
    match result with
    | None => Res OFalse (sc_st sc) 0
    | Some v => k_fn k (sc_st sc) (if void then [] else [v])
    end
  | PNoFuel => NoFuel
  | PCrash => Crash
  end.

(** lexy::scan, action/scan.hpp:40-45 (constructor) and l.52-63 [finish]; [q] is the control
    production.  The result is that of [lexy::validate]. *)
Definition scan_start (q : nat) : scanner := Scanner (emit (EPStart q 0) (St 0 0 true [] [])) Normal 0.
Definition scan_finish (transparent : nat -> bool) (q : nat) (sc : scanner)
  : status * list report * list event :=
  let e := if sc_ok sc then EPFinish q (sc_pos sc) else EPCancel q (sc_pos sc) in
  let events := rev (trace (emit e (sc_st sc))) in
  (validate_of transparent (sc_ok sc) [] events, events).
Definition scan_action (transparent : nat -> bool) (q : nat) (u : prog)
  : option (status * list report * list event) :=
  match sc_run u (scan_start q) with
  | PRes _ sc => Some (scan_finish transparent q sc)
  | _ => None
  end.
End Scan.
