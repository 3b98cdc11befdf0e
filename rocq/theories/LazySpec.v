(** What a program may expect of the holders of _detail/lazy_init.hpp: each is
    an [std::optional], and a moved-from one still has an object in it. *)
From Verif Require Import Prelude LazyModel.
From Coq Require Import List Arith.
Import ListNotations.
Set Implicit Arguments.
Local Open Scope nat_scope.

Section Spec.
Variable V : Type.

(** What the holder numbered [i] should hold: [None] if there is no such
    holder, [Some None] if it is empty. *)
Definition notebook := nat -> option (option (contents V)).

Definition note (b : notebook) (i : nat) x : notebook :=
  fun k => if k =? i then x else b k.

(** The notes after an operation; [n] is the number of holders so far. *)
Definition noted (fl : flavor) (b : notebook) (n : nat) (o : op V) : notebook :=
  match o with
  | New _ => note b n (Some None)
  | Emplace i v => note b i (Some (Some (Val v)))
  | Throw _ i => b
  | MoveNew _ i =>
    note (note b i (option_map (option_map (left_over fl)) (b i))) n (b i)
  | MoveTo _ i j =>
    note (note b i (b j)) j (option_map (option_map (left_over fl)) (b j))
  | Destroy _ i => note b i None
  end.

(** An operation is proper if the holders it names exist. *)
Definition proper (b : notebook) (o : op V) : Prop :=
  match o with
  | New _ => True
  | Emplace i _ | Throw _ i | MoveNew _ i | Destroy _ i => b i <> None
  | MoveTo _ i j => b i <> None /\ b j <> None
  end.

Definition creates (o : op V) : nat :=
  match o with New _ | MoveNew _ _ => 1 | _ => 0 end.

(** Histories with proper operations only, and the notes at their end. *)
Fixpoint history (fl : flavor) (b : notebook) (n : nat) (os : list (op V))
  : Prop :=
  match os with
  | [] => True
  | o :: r => proper b o /\ history fl (noted fl b n o) (n + creates o) r
  end.

Fixpoint notes (fl : flavor) (b : notebook) (n : nat) (os : list (op V))
  : notebook :=
  match os with
  | [] => b
  | o :: r => notes fl (noted fl b n o) (n + creates o) r
  end.

Definition blank : notebook := fun _ => None.

(** How many of the first [n] holders have an object. *)
Fixpoint holding (b : notebook) (n : nat) : nat :=
  match n with
  | O => 0
  | S n => (match b n with Some (Some _) => 1 | _ => 0 end) + holding b n
  end.

(** The number of holders a history creates. *)
Fixpoint created (os : list (op V)) : nat :=
  match os with [] => 0 | o :: r => creates o + created r end.
End Spec.
