(** What strings and names are supposed to be. *)
From Verif Require Import Prelude NameModel.
From Coq Require Import String List.
Close Scope N_scope.

(** The units a view shows, and that it lies in its array and says the truth about the
    terminator. *)
Definition text (v : sv) : list N := firstn (sv_size v) (skipn (sv_ptr v) (sv_buf v)).
Definition good (v : sv) : Prop := sv_ptr v + sv_size v <= List.length (sv_buf v) /\
  (sv_nt v = true -> nth_error (sv_buf v) (sv_ptr v + sv_size v) = Some 0%N).

(** The [n] units of an array from [p] on. *)
Definition slice (b : list N) (p n : nat) : list N := firstn n (skipn p b).
Definition begins (p l : list N) : Prop := exists r, l = p ++ r.
(** [s] stands at [i] in [l]. *)
Definition stands (s l : list N) (i : nat) : Prop := begins s (skipn i l).

(** Reading an array as a C string from [p] on gives [s]. *)
Definition reads (b : list N) (p : nat) (s : list N) : Prop := begins (s ++ [0%N]) (skipn p b) /\ ~ In 0%N s.

Definition codes (s : string) : list N := List.map (fun c => N.of_nat (Ascii.nat_of_ascii c)) (list_ascii_of_string s).

(** Qualified names of C++. *)
Definition ident_unit (u : N) : Prop :=
  ((48 <= u /\ u <= 57) \/ (65 <= u /\ u <= 90) \/ u = 95 \/ (97 <= u /\ u <= 122) \/ 128 <= u)%N.
Definition identifier (c : list N) : Prop := c <> [] /\ Forall ident_unit c.
Fixpoint qualified (cs : list (list N)) : list N :=
  match cs with [] => [] | [c] => c | c :: cs => c ++ codes "::" ++ qualified cs end.

(** The compiler spells the function for a type: the type with the keyword it puts in front (only
    MSVC) and, for a type in an anonymous namespace, that namespace. *)
Definition keyword (k : compiler) (w : list N) : Prop :=
  match k with Msvc => w = codes "struct " \/ w = codes "class " | _ => w = [] end.
Definition spells (k : compiler) (f ty : list N) : Prop := exists w a,
  keyword k w /\ (a = [] \/ a = codes (anon k)) /\ f = codes (pre k) ++ (w ++ a ++ ty) ++ codes (suf k) ++ [0%N].

(** The documented name: without the top-level namespace, if there is one. *)
Definition documented (cs : list (list N)) : list N := match cs with _ :: _ :: _ => qualified (tl cs) | _ => qualified cs end.
