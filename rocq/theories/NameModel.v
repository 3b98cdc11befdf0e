(** Names of types: [_detail/string_view.hpp], [_detail/type_name.hpp], and what [error.hpp] does
    with them.  A pointer is an index into the array it points into; [None] is a violated
    precondition or a read outside of the array.  Sizes are unbounded numbers ([size_t] is not
    modelled: no string is that long), [npos] is [None] inside the result. *)
From Verif Require Import Prelude.
From Coq Require Import String List.
Close Scope N_scope.

(** string_view.hpp:187-190 *)
Record sv := Sv { sv_buf : list N; sv_ptr : nat; sv_size : nat; sv_nt : bool }.

Definition bind {A B} (x : option A) (f : A -> option B) : option B := match x with Some a => f a | None => None end.
Notation "'do' a <- x ; y" := (bind x (fun a => y)) (at level 200, a name, x at level 100, y at level 200).
Definition require (b : bool) : option unit := if b then Some tt else None.

(** Reading a unit of the array. *)
Definition rd (b : list N) (i : nat) : option N := nth_error b i.

(** string_view.hpp:25-26 (the static [empty_string], 19) *)
Definition sv_empty : sv := Sv [0%N] 0 0 true.
(** string_view.hpp:28-33: the loop, on what is left of the array *)
Fixpoint strlen (rest : list N) : option nat :=
  match rest with
  | [] => None
  | u :: rest => if (u =? 0)%N then Some 0 else do n <- strlen rest; Some (S n)
  end.
Definition sv_cstr (b : list N) (p : nat) : option sv := do n <- strlen (skipn p b); Some (Sv b p n true).
(** string_view.hpp:35-37 *)
Definition sv_sized (b : list N) (p n : nat) : sv := Sv b p n false.
(** string_view.hpp:38-42 *)
Definition sv_terminated (b : list N) (p n : nat) : option sv :=
  do u <- rd b (p + n); do _ <- require (u =? 0)%N; Some (Sv b p n true).
(** string_view.hpp:44-48 *)
Definition sv_range (b : list N) (p q : nat) : option sv := do _ <- require (p <=? q); Some (Sv b p (q - p) false).

(** string_view.hpp:75-79 *)
Definition sv_at (v : sv) (i : nat) : option N := do _ <- require (i <=? sv_size v); rd (sv_buf v) (sv_ptr v + i).
(** string_view.hpp:80-84 *)
Definition sv_front (v : sv) : option N := do _ <- require (negb (sv_size v =? 0)); rd (sv_buf v) (sv_ptr v).
(** string_view.hpp:85-89 *)
Definition sv_back (v : sv) : option N := do _ <- require (negb (sv_size v =? 0)); rd (sv_buf v) (sv_ptr v + (sv_size v - 1)).
(** string_view.hpp:101-105 *)
Definition sv_c_str (v : sv) : option nat := do _ <- require (sv_nt v); Some (sv_ptr v).

(** string_view.hpp:110-115 *)
Definition sv_remove_prefix (v : sv) (n : nat) : option sv :=
  do _ <- require (n <=? sv_size v); Some (Sv (sv_buf v) (sv_ptr v + n) (sv_size v - n) (sv_nt v)).
(** string_view.hpp:116-121 *)
Definition sv_remove_suffix (v : sv) (n : nat) : option sv :=
  do _ <- require (n <=? sv_size v); Some (Sv (sv_buf v) (sv_ptr v) (sv_size v - n) false).
(** string_view.hpp:123-137 *)
Definition sv_substr (v : sv) (pos len : nat) : option sv :=
  do _ <- require (pos <? sv_size v);
  if sv_size v - pos <=? len then
    do r <- sv_range (sv_buf v) (sv_ptr v + pos) (sv_ptr v + sv_size v);
    Some (Sv (sv_buf r) (sv_ptr r) (sv_size r) (sv_nt v))
  else Some (sv_sized (sv_buf v) (sv_ptr v + pos) len).

(** string_view.hpp:168-179: the loop compares [n] more units *)
Fixpoint eq_loop (a b : list N) (i j n : nat) : option bool :=
  match n with
  | 0 => Some true
  | S n => do x <- rd a i; do y <- rd b j; if (x =? y)%N then eq_loop a b (S i) (S j) n else Some false
  end.
Definition sv_eq (v w : sv) : option bool :=
  if negb (sv_size v =? sv_size w) then Some false
  else eq_loop (sv_buf v) (sv_buf w) (sv_ptr v) (sv_ptr w) (sv_size v).

(** string_view.hpp:139-142 *)
Definition sv_starts_with (v p : sv) : option bool := do s <- sv_substr v 0 (sv_size p); sv_eq s p.
(** string_view.hpp:143-150: whether, and the view afterwards *)
Definition sv_try_remove_prefix (v p : sv) : option (bool * sv) :=
  do b <- sv_starts_with v p;
  if b then do v' <- sv_remove_prefix v (sv_size p); Some (true, v') else Some (false, v).
(** string_view.hpp:152-161: the loop with [n] rounds left; [None] in the result is [npos] *)
Fixpoint find_loop (v s : sv) (i n : nat) : option (option nat) :=
  match n with
  | 0 => Some None
  | S n => do t <- sv_substr v i (sv_size s); do b <- sv_eq t s; if b then Some (Some i) else find_loop v s (S i) n
  end.
Definition sv_find (v s : sv) (pos : nat) : option (option nat) := find_loop v s pos (sv_size v - pos).
(** string_view.hpp:162-165 *)
Definition sv_find_char (v : sv) (c : N) (pos : nat) : option (option nat) := sv_find v (sv_sized [c] 0 1) pos.

(** string_view.hpp:197-208: the array of [make_cstr] *)
Fixpoint seq_at (v : sv) (i n : nat) : option (list N) :=
  match n with 0 => Some [] | S n => do u <- sv_at v i; do us <- seq_at v (S i) n; Some (u :: us) end.
Definition make_cstr (v : sv) : option (list N) := do us <- seq_at v 0 (sv_size v); Some (us ++ [0%N]).

(** A string literal: its array. *)
Definition cstr (s : string) : list N := List.map (fun c => N.of_nat (Ascii.nat_of_ascii c)) (list_ascii_of_string s) ++ [0%N].
Definition lit_sv (s : string) : option sv := sv_cstr (cstr s) 0.

(** type_name.hpp:19-74: what the compiler spells before and behind the type, and what is removed
    from the type.  The spelling of the type itself is given by the compiler. *)
Inductive compiler := Clang | Gcc | Msvc.
Definition pre (k : compiler) : string := match k with
  | Clang => "auto lexy::_detail::_full_type_name() [T = "
  | Gcc => "constexpr auto lexy::_detail::_full_type_name() [with T = "
  | Msvc => "auto __cdecl lexy::_detail::_full_type_name<"
  end%string.
Definition suf (k : compiler) : string := match k with Clang | Gcc => "]" | Msvc => ">(void)" end%string.
Definition anon (k : compiler) : string := match k with
  | Clang => "(anonymous namespace)::" | Gcc => "{anonymous}::" | Msvc => "`anonymous-namespace'::" end%string.

Definition try_remove (v : sv) (s : string) : option (bool * sv) := do p <- lit_sv s; sv_try_remove_prefix v p.
(** type_name.hpp:26-33, 43-51, 57-65; [f] is the array of [__PRETTY_FUNCTION__]/[__FUNCSIG__] *)
Definition full_type_name (k : compiler) (f : list N) : option sv :=
  do p <- lit_sv (pre k); do s <- lit_sv (suf k);
  do v <- sv_cstr f 0;
  do v <- sv_remove_prefix v (sv_size p);
  do v <- sv_remove_suffix v (sv_size s);
  do v <- match k with
          | Msvc => do x <- try_remove v "struct "; if fst x then Some (snd x) else do y <- try_remove v "class "; Some (snd y)
          | _ => Some v
          end;
  do x <- try_remove v (anon k); Some (snd x).

(** type_name.hpp:83-89: the loop *)
Fixpoint ns_loop (v : sv) (n : nat) : option sv :=
  match n with
  | 0 => Some v
  | S n => do c <- lit_sv "::"; do r <- sv_find v c 0;
           match r with None => Some v | Some pos => do v' <- sv_remove_prefix v (pos + 2); ns_loop v' n end
  end.
(** type_name.hpp:76-91 *)
Definition short_name (k : compiler) (f : list N) (ns : nat) : option sv :=
  do v <- full_type_name k f;
  do r <- sv_find_char v 60%N 0;
  match r with
  | Some _ => if ns =? 0 then ns_loop v ns else Some v
  | None => ns_loop v ns
  end.

(** A type: it has a function or a member [name] (its array), or it has not, and the compiler
    spells [_full_type_name] like this. *)
Inductive cpp_type := Named (name : list N) | Unnamed (f : list N).
(** type_name.hpp:93-104, grammar.hpp:171-175 ([production_name]), error.hpp:71-78 ([message]);
    without automatic names (compilers other than the three) every name is "unknown-type", which is
    not modelled *)
Definition type_name (k : compiler) (t : cpp_type) (ns : nat) : option (list N) :=
  match t with Named a => Some a | Unnamed f => do v <- short_name k f ns; make_cstr v end.

(** error.hpp:45-49: the error has the message [msg] *)
Definition error_is (k : compiler) (msg : list N) (tag : cpp_type) : option bool :=
  do n <- type_name k tag 1; do a <- sv_cstr msg 0; do b <- sv_cstr n 0; sv_eq a b.
