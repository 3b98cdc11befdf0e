(** Specification vocabulary for word-at-a-time scanning; nothing here mentions
    words, masks or carries. *)
From Verif Require Import Prelude.
Open Scope N_scope.

(** Length of the longest prefix whose units all satisfy [q]. *)
Fixpoint run (q : N -> bool) (l : list N) : nat :=
  match l with
  | [] => 0
  | x :: l' => if q x then S (run q l') else 0
  end.

(** First index at which two lists of the same length differ; the length if they
    do not. *)
Fixpoint first_diff (a b : list N) : nat :=
  match a, b with
  | x :: a', y :: b' => if x =? y then S (first_diff a' b') else 0
  | _, _ => 0
  end.

(** Number of leading units of [cs] found at the front of [l]. *)
Fixpoint common (cs l : list N) : nat :=
  match cs, l with
  | c :: cs', x :: l' => if c =? x then S (common cs' l') else 0
  | _, _ => 0
  end.

(** [l] starts with a newline of [n] units (LF, or CR LF). *)
Definition newline_at (l : list N) (n : nat) : Prop :=
  (n = 1%nat /\ exists l', l = 0x0A :: l') \/ (n = 2%nat /\ exists l', l = 0x0D :: 0x0A :: l').

(** The first newline of [l] starts after [k] units and has [n] units. *)
Definition first_newline (l : list N) (k n : nat) : Prop :=
  newline_at (skipn k l) n /\ forall j m, (j < k)%nat -> ~ newline_at (skipn j l) m.
Definition no_newline (l : list N) : Prop := forall j m, ~ newline_at (skipn j l) m.
