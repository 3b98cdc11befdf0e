(** Specification vocabulary for [argv_input]. *)
From Verif Require Import Prelude ArgvModel.
Open Scope N_scope.

(** The text: the arguments after the program name with one NUL between neighbours. *)
Fixpoint joined (l : list (list N)) : list N :=
  match l with
  | [] => []
  | [s] => s
  | s :: l' => s ++ 0 :: joined l'
  end.
Definition argv_text (a : args) : list N := joined (tl a).

(** Arguments are C strings. *)
Definition c_strings (a : args) : Prop := Forall (fun s => ~ In 0 s) a.

(** The iterator reached from the begin by [k] increments. *)
Fixpoint steps (a : args) (k : nat) (x : argv_it) : option argv_it :=
  match k with
  | O => Some x
  | S k' => match it_increment a x with Some y => steps a k' y | None => None end
  end.
Definition at_pos (a : args) (k : nat) (x : argv_it) : Prop := steps a k (argv_begin a) = Some x.
