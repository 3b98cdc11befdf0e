(** Model of [lexy::argv_input] (include/lexy/input/argv_input.hpp) and of the generic range
    reader and range algorithms it is used with (input/base.hpp, _detail/iterator.hpp). *)
From Verif Require Import Prelude.
Open Scope N_scope.

(** The argument vector: [argv[i]] for i < argc, without the terminating NULs; [argv[argc]] is the
    null pointer.  The characters of an argument are not NUL. *)
Definition args := list (list N).

(** argv_input.hpp:23-86 [argv_iterator]: [_arg] as index into [argv], [_c] as offset in [argv[_arg]], or
    null.  The default constructed iterator (l.26, both pointers null) is not modelled. *)
Record argv_it := It { it_arg : nat; it_c : option nat }.

(** Outcomes: [None] is an access outside of the vector or of an argument, or a failed precondition. *)

(** [*_c]: a character of the argument, or the NUL behind it. *)
Definition char_at (a : args) (i j : nat) : option N :=
  match nth_error a i with
  | Some s => nth_error (s ++ [0]) j
  | None => None
  end.

(** argv_input.hpp:28-31 [deref]. *)
Definition it_deref (a : args) (x : argv_it) : option N :=
  match it_c x with
  | Some j => char_at a (it_arg x) j
  | None => None
  end.

(** argv_input.hpp:66-71 [is_end]; [_arg[1] == nullptr] exactly if the next index is argc. *)
Definition it_is_end (a : args) (x : argv_it) : option bool :=
  match it_c x with
  | None => Some true
  | Some j =>
    match char_at a (it_arg x) j with
    | Some c => Some ((c =? 0) && (S (it_arg x) =? length a)%nat)
    | None => None
    end
  end.

(** argv_input.hpp:33-46 [increment]; the precondition fails at the end. *)
Definition it_increment (a : args) (x : argv_it) : option argv_it :=
  match it_is_end a x with
  | Some false =>
    match it_c x with
    | Some j =>
      match char_at a (it_arg x) j with
      | Some c =>
        if c =? 0 then
          let i := S (it_arg x) in
          (* [_c = *_arg] *)
          match nth_error a i with
          | Some _ => Some (It i (Some 0%nat))
          | None => Some (It i None)
          end
        else Some (It (it_arg x) (Some (S j)))
      | None => None
      end
    | None => None
    end
  | _ => None
  end.

(** argv_input.hpp:55-56: the loop to the NUL of an argument, from its begin. *)
Definition end_of_arg (s : list N) : nat := length s.

(** argv_input.hpp:47-60 [decrement]; [_c == *_arg] if both are null or [_c] points to the first character. *)
Definition it_decrement (a : args) (x : argv_it) : option argv_it :=
  let at_begin := match it_c x, nth_error a (it_arg x) with
                  | None, None => true
                  | Some j, Some _ => (j =? 0)%nat
                  | _, _ => false
                  end in
  if at_begin then
    match it_arg x with
    | O => None
    | S i => match nth_error a i with
             | Some s => Some (It i (Some (end_of_arg s)))
             | None => None
             end
    end
  else match it_c x with
       | Some (S j) => Some (It (it_arg x) (Some j))
       | _ => None
       end.

(** argv_input.hpp:62-65 [equal]. *)
Definition it_equal (x y : argv_it) : bool :=
  (it_arg x =? it_arg y)%nat &&
  match it_c x, it_c y with
  | None, None => true
  | Some j, Some k => (j =? k)%nat
  | _, _ => false
  end.

(** argv_input.hpp:88-96 [argv_begin], 98-113 [argv_end]. *)
Definition argv_begin (a : args) : argv_it :=
  if (length a <=? 1)%nat then It (length a) None else It 1 (Some 0%nat).
Definition argv_end (a : args) : option argv_it :=
  if (length a <=? 1)%nat then Some (It (length a) None)
  else it_decrement a (It (length a) None).

(** input/base.hpp:14-68 [_rr] over these iterators (argv_input.hpp:140-144 [reader]): the reader is the
    current position; [None] inside is end of input. *)
Definition rr_peek (a : args) (e x : argv_it) : option (option N) :=
  if it_equal x e then Some None
  else match it_deref a x with Some c => Some (Some c) | None => None end.
Definition rr_bump (a : args) (e x : argv_it) : option argv_it :=
  if it_equal x e then None else it_increment a x.

(** argv_input.hpp:167-201 [argv_separator]: [try_parse]; the position behind it, if it matches. *)
Definition argv_separator (a : args) (e x : argv_it) : option (bool * argv_it) :=
  match rr_peek a e x with
  | None => None
  | Some (Some c) =>
    if c =? 0 then match rr_bump a e x with Some y => Some (true, y) | None => None end
    else Some (false, x)
  | Some None => Some (false, x)
  end.

(** _detail/iterator.hpp:21-35 [range_size], 57-78 [next_clamped], 90-111 [min_range_end], 113-139 [max_range_end]
    for iterators without random access.  The loops run on fuel; [None]: out of fuel or a failed step. *)
Fixpoint range_size (a : args) (fuel : nat) (x e : argv_it) : option nat :=
  if it_equal x e then Some 0%nat
  else match fuel with
  | O => None
  | S f => match it_increment a x with
           | Some y => option_map S (range_size a f y e)
           | None => None
           end
  end.
Fixpoint next_clamped (a : args) (x : argv_it) (n : nat) (e : argv_it) : option argv_it :=
  match n with
  | O => Some x
  | S n' => if it_equal x e then Some x
            else match it_increment a x with Some y => next_clamped a y n' e | None => None end
  end.
Fixpoint min_range_end (a : args) (fuel : nat) (cur e1 e2 : argv_it) : option argv_it :=
  if negb (it_equal cur e1) && negb (it_equal cur e2) then
    match fuel with
    | O => None
    | S f => match it_increment a cur with Some y => min_range_end a f y e1 e2 | None => None end
    end
  else Some cur.
Fixpoint max_range_end (a : args) (fuel : nat) (cur e1 e2 : argv_it) : option argv_it :=
  if it_equal cur e1 then Some e2
  else if it_equal cur e2 then Some e1
  else match fuel with
  | O => None
  | S f => match it_increment a cur with Some y => max_range_end a f y e1 e2 | None => None end
  end.
