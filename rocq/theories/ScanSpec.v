(** Specification vocabulary for the scanner. *)
From Verif Require Import Prelude RuleModel RuleSpec RuleGood ScanModel.
Close Scope N_scope.

(** A history: operations and what they answered.  Every run of a program has one
    ([ScanProofs.run_history]). *)
Inductive history inp (E : engine) (c : cx) : scanner -> list (op * answer) -> scanner -> Prop :=
| hist_nil sc : history inp E c sc [] sc
| hist_cons sc o a sc1 log sc2 :
    sc_op inp E c sc o = SRes a sc1 -> history inp E c sc1 log sc2 -> history inp E c sc ((o, a) :: log) sc2.

(** Operations that have nothing to do with recovery guards. *)
Definition quiet (o : op) : Prop :=
  match o with ORecover | OFinish | OCancel => False | _ => True end.
(** The answer says that nothing was parsed: false, and the result is what it was. *)
Definition failed_answer (o : op) (a : answer) : Prop :=
  match o with
  | OParse result _ => a_result a = result
  | OBranch result _ => a_bool a = false /\ a_result a = result
  | ODiscard _ => a_bool a = false
  | _ => True
  end.
(** The errors reported by the program itself. *)
Fixpoint own_errors (log : list (op * answer)) : list event :=
  match log with
  | [] => []
  | (OError t b e, _) :: log | (OFatal t b e, _) :: log => EError t b e :: own_errors log
  | _ :: log => own_errors log
  end.
(** The positions of its errors are in the input. *)
Definition own_error_in (inp : list N) (o : op) : Prop :=
  match o with OError _ b e | OFatal _ b e => b <= e /\ e <= length inp | _ => True end.
(** Its rules use find and recover only to recover. *)
Definition strong (o : op) : Prop :=
  match o with OParse _ r | OBranch _ r => weak r = false | _ => True end.
