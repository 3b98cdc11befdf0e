(** Specification vocabulary for callbacks and sinks. *)
From Verif Require Import Prelude CbModel.
Set Implicit Arguments.

(** Calling a function with an effect on the world once for each element of a list, in order,
    gives these results and ends in that world. *)
Inductive calls {W B A} (f : W -> B -> W * A) : W -> list B -> list A -> W -> Prop :=
| calls_nil w : calls f w [] [] w
| calls_cons w b w' a bs as_ w'' :
    f w b = (w', a) -> calls f w' bs as_ w'' -> calls f w (b :: bs) (a :: as_) w''.

(** The same for an operation that also gets the previous result. *)
Inductive folds {W B T} (op : W -> T -> B -> W * T) : W -> T -> list B -> W -> T -> Prop :=
| folds_nil w t : folds op w t [] w t
| folds_cons w t b w' t' bs w'' t'' :
    op w t b = (w', t') -> folds op w' t' bs w'' t'' -> folds op w t (b :: bs) w'' t''.

(** The elements of a collection after adding [xs] in order: no two are the same, every one is
    one of [xs], each [x] of [xs] has one that is the same, and it is the first one given. *)
Definition first_of_each {A} (same : A -> A -> bool) (xs ys : list A) : Prop :=
  (forall i j x y, nth_error ys i = Some x -> nth_error ys j = Some y -> i <> j -> same x y = false) /\
  (forall y, In y ys -> exists pre post, xs = pre ++ y :: post /\ forall x, In x pre -> same y x = false) /\
  (forall x, In x xs -> exists y, In y ys /\ same x y = true).

(** What a bound argument stands for, given the state and the arguments of the call.  An
    argument list for which this does not hold of any result is ill-formed. *)
Inductive stands_for {V S} (state : option S) (args : list (arg V)) : bound V S -> list (arg V) -> Prop :=
| st_value a : stands_for state args (BValue a) [a]
| st_all : stands_for state args BAll args
(* the Nth argument *)
| st_nth n a : nth_error args n = Some a ->
    stands_for state args (BNth (Datatypes.S n) None None) [a]
| st_nth_map n a fn : nth_error args n = Some a ->
    stands_for state args (BNth (Datatypes.S n) None (Some fn)) [fn a]
(* with a fallback: the argument if it is there and not nullopt *)
| st_or n v fb : nth_error args n = Some (Val v) ->
    stands_for state args (BNth (Datatypes.S n) (Some fb) None) [Val v]
| st_or_map n v fb fn : nth_error args n = Some (Val v) ->
    stands_for state args (BNth (Datatypes.S n) (Some fb) (Some fn)) [fn (Val v)]
| st_fallback n fb fn : nth_error args n = None \/ nth_error args n = Some Nullopt ->
    stands_for state args (BNth (Datatypes.S n) (Some fb) fn) [fb]
| st_state s fn : state = Some s -> stands_for state args (BState fn) [fn s].

(** [nth_value] is 1-based (static_assert bind.hpp:174). *)
Definition one_based {V S} (b : bound V S) : Prop :=
  match b with BNth n _ _ => n <> 0%nat | _ => True end.
