(** Model of [lexy::_detail::lazy_init] (_detail/lazy_init.hpp): the holder
    in which the value of a production is built while it is parsed and from
    which it is moved into the result (action/base.hpp:129, action/parse.hpp:90,
    dsl/scan.hpp:90, dsl/parse_as.hpp:95, dsl/subgrammar.hpp:82).

    C++ object lifetimes are explicit here.  The storage of a holder is the
    union of lines 17-21 / 41-45: it has a live object of the held type in it,
    or it has not.  Starting the lifetime of an object in storage that already
    has one (the old object is never destroyed), and using or destroying an
    object that is not there, are the outcome [None]. *)
From Verif Require Import Prelude.
From Coq Require Import List Arith.
Import ListNotations.
Set Implicit Arguments.

(** The three storages of a holder of an object type and the two
    specialisations (lazy_init.hpp:95-106: the choice, 13-35: trivial,
    37-93: non trivial, 176-215: references, 216-242: void). *)
Inductive flavor := Trivial | NonTrivial | Reference | Void.

Section Holder.
Variable V : Type.

(** The contents of an object: a value, or what is left after it has been
    moved from. *)
Inductive contents := Val (v : V) | Moved.

(** A holder: the flag [_init] and the storage, [None] if no object is alive
    in it (lazy_init.hpp:40-45).  For a reference [_init] stands for
    [_ptr != nullptr] and the storage for the pointer (214); for void only the
    flag exists (241), and the storage mirrors it. *)
Record holder := Holder { h_init : bool; h_store : option contents }.

(** Number of objects whose lifetime has begun and ended. *)
Record world := World { slots : list (option holder); made : nat; gone : nat }.

(** [constexpr lazy_init() noexcept] (23, 47, 182, 222). *)
Definition fresh : holder := Holder false None.

(** [construct_at(&_value, ...)]. *)
Definition construct_at (s : option contents) (c : contents)
  : option (option contents) :=
  match s with None => Some (Some c) | Some _ => None end.

(** [_value.~T()]. *)
Definition destroy_at (s : option contents) : option (option contents) :=
  match s with None => None | Some _ => Some None end.

(** [_value = c]: the object must be alive. *)
Definition assign_to (s : option contents) (c : contents)
  : option (option contents) :=
  match s with None => None | Some _ => Some (Some c) end.

(** Reading the object: it must be alive. *)
Definition read_from (s : option contents) : option contents := s.

(** What is left in an object of the held type after its value has been
    moved: types with trivial moves are copied and references stay where they
    are, for the others the model makes no assumption on the value left. *)
Definition left_over (fl : flavor) (c : contents) : contents :=
  match fl with NonTrivial => Moved | _ => c end.

(** Whether objects of the flavour have lifetimes to be counted: the
    destructor of a trivial type is not called (13-35). *)
Definition counted (fl : flavor) (n : nat) : nat :=
  match fl with NonTrivial => n | _ => 0 end.

(** [_construct] (31-34: the whole storage is overwritten, 50-54: the object
    is constructed, then the flag is set). *)
Definition construct (fl : flavor) (h : holder) (c : contents) : option holder :=
  match fl with
  | NonTrivial =>
    match construct_at (h_store h) c with
    | Some s => Some (Holder true s)
    | None => None
    end
  | _ => Some (Holder true (Some c))
  end.

(** [emplace] (117-125; 184-188 for references, 224-227 for void): assign a
    temporary if there is a value, else construct.  Returns the holder, the
    objects made and the objects destroyed. *)
Definition emplace (fl : flavor) (h : holder) (c : contents)
  : option (holder * nat * nat) :=
  match fl with
  | Trivial | NonTrivial =>
    if h_init h
    then match assign_to (h_store h) c with
         | Some s => Some (Holder (h_init h) s, counted fl 1, counted fl 1)
         | None => None
         end
    else match construct fl h c with
         | Some h' => Some (h', counted fl 1, 0)
         | None => None
         end
  | Reference | Void => Some (Holder true (Some c), 0, 0)
  end.

(** [emplace] when the constructor of the value throws: in line 120 before
    the assignment, in line 52 before line 53; in line 231 before line 232 for
    void (the callback throws, the flag is not set).  The holder is unchanged. *)
Definition emplace_throws (fl : flavor) (h : holder) : holder := h.

(** Move construction (63-69; the implicit copy of the flag and the union for
    trivial storage, of the pointer, of the flag).  Returns the new holder,
    the old one, and the objects made. *)
Definition move_construct (fl : flavor) (other : holder)
  : option (holder * holder * nat) :=
  match fl with
  | NonTrivial =>
    if h_init other
    then match read_from (h_store other) with
         | None => None
         | Some c =>
           match construct_at None c with
           | Some s => Some (Holder (h_init other) s,
                             Holder (h_init other) (Some (left_over fl c)),
                             counted fl 1)
           | None => None
           end
         end
    else Some (Holder (h_init other) None, other, 0)
  | _ => Some (other, other, 0)
  end.

(** Move assignment of two different holders (71-92). Returns the holder
    assigned to, the other one, the objects made and destroyed. *)
Definition move_assign (fl : flavor) (h other : holder)
  : option (holder * holder * nat * nat) :=
  match fl with
  | NonTrivial =>
    if h_init h && h_init other
    then match read_from (h_store other) with
         | None => None
         | Some c =>
           match assign_to (h_store h) c with
           | Some s => Some (Holder (h_init h) s,
                             Holder (h_init other) (Some (left_over fl c)), 0, 0)
           | None => None
           end
         end
    else if h_init h && negb (h_init other)
    then match destroy_at (h_store h) with
         | Some s => Some (Holder false s, other, 0, counted fl 1)
         | None => None
         end
    else if negb (h_init h) && h_init other
    then match read_from (h_store other) with
         | None => None
         | Some c =>
           match construct_at (h_store h) c with
           | Some s => Some (Holder true s,
                             Holder (h_init other) (Some (left_over fl c)),
                             counted fl 1, 0)
           | None => None
           end
         end
    else Some (h, other, 0, 0)
  | _ => Some (other, other, 0, 0)
  end.

(** Move assignment of a holder to itself: lines 74-75 assign the value to
    itself, which leaves what the type leaves. *)
Definition self_assign (fl : flavor) (h : holder) : option holder :=
  match fl with
  | NonTrivial =>
    if h_init h
    then match read_from (h_store h) with
         | None => None
         | Some c =>
           match assign_to (h_store h) (left_over fl c) with
           | Some s => Some (Holder (h_init h) s)
           | None => None
           end
         end
    else Some h
  | _ => Some h
  end.

(** The destructor (57-61).  Storage must not be given up with a live object
    in it: the flavour with lifetimes checks that in the last line. *)
Definition destroy (fl : flavor) (h : holder) : option nat :=
  match fl with
  | NonTrivial =>
    match (if h_init h then destroy_at (h_store h) else Some (h_store h)) with
    | Some None => Some (if h_init h then 1 else 0)
    | _ => None
    end
  | _ => Some 0
  end.

(** [operator*], [operator->] (138-168, 201-211) with their precondition;
    [Some None] is the failed precondition. *)
Definition deref (h : holder) : option (option contents) :=
  if h_init h
  then match read_from (h_store h) with Some c => Some (Some c) | None => None end
  else Some None.

(** What a program does with its holders; holders are named by their number,
    in order of creation. *)
Inductive op :=
| New                          (* lazy_init<T> x; *)
| Emplace (i : nat) (v : V)    (* x.emplace(v), x.emplace_result(...) *)
| Throw (i : nat)              (* x.emplace(...), and it throws *)
| MoveNew (i : nat)            (* lazy_init<T> y(std::move(x)); *)
| MoveTo (i j : nat)           (* x = std::move(y); *)
| Destroy (i : nat).           (* end of the lifetime of x *)

Definition get (w : world) (i : nat) : option holder :=
  match nth_error (slots w) i with Some (Some h) => Some h | _ => None end.

Fixpoint set {A} (l : list A) (i : nat) (a : A) : list A :=
  match l, i with
  | [], _ => []
  | _ :: r, O => a :: r
  | x :: r, S i => x :: set r i a
  end.

(** One operation; [None] is undefined behaviour: a lifetime error, or a
    holder that does not exist (any more). *)
Definition step (fl : flavor) (w : world) (o : op) : option world :=
  match o with
  | New => Some (World (slots w ++ [Some fresh]) (made w) (gone w))
  | Emplace i v =>
    match get w i with
    | None => None
    | Some h =>
      match emplace fl h (Val v) with
      | None => None
      | Some (h', m, g) =>
        Some (World (set (slots w) i (Some h')) (made w + m) (gone w + g))
      end
    end
  | Throw i =>
    match get w i with
    | None => None
    | Some h =>
      Some (World (set (slots w) i (Some (emplace_throws fl h))) (made w) (gone w))
    end
  | MoveNew i =>
    match get w i with
    | None => None
    | Some h =>
      match move_construct fl h with
      | None => None
      | Some (n, h', m) =>
        Some (World (set (slots w) i (Some h') ++ [Some n]) (made w + m) (gone w))
      end
    end
  | MoveTo i j =>
    match get w i, get w j with
    | Some h, Some k =>
      if i =? j
      then match self_assign fl h with
           | None => None
           | Some h' => Some (World (set (slots w) i (Some h')) (made w) (gone w))
           end
      else match move_assign fl h k with
           | None => None
           | Some (h', k', m, g) =>
             Some (World (set (set (slots w) i (Some h')) j (Some k'))
                         (made w + m) (gone w + g))
           end
    | _, _ => None
    end
  | Destroy i =>
    match get w i with
    | None => None
    | Some h =>
      match destroy fl h with
      | None => None
      | Some g => Some (World (set (slots w) i None) (made w) (gone w + g))
      end
    end
  end.

Fixpoint run (fl : flavor) (w : world) (os : list op) : option world :=
  match os with
  | [] => Some w
  | o :: r => match step fl w o with None => None | Some w' => run fl w' r end
  end.

Definition start : world := World [] 0 0.

(** [operator bool] (133-136, 196-199, 235-238). *)
Definition has_value (w : world) (i : nat) : bool :=
  match get w i with Some h => h_init h | None => false end.

Definition value (w : world) (i : nat) : option (option contents) :=
  match get w i with Some h => deref h | None => None end.
End Holder.
