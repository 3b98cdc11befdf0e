(** Specification vocabulary for digit tokens and integers. *)
From Verif Require Import Prelude IntModel.
Open Scope N_scope.

(** The value of a digit of a base; [None] for other characters. *)
Definition digit_of (b : base) (c : N) : option N :=
  let dec := if (48 <=? c) && (c <=? 57) then Some (c - 48) else None in
  let low := if (97 <=? c) && (c <=? 102) then Some (c - 97 + 10) else None in
  let up := if (65 <=? c) && (c <=? 70) then Some (c - 65 + 10) else None in
  match b with
  | Binary => if (c =? 48) || (c =? 49) then dec else None
  | Octal => if (48 <=? c) && (c <=? 55) then dec else None
  | Decimal => dec
  | HexLower => match dec with None => low | d => d end
  | HexUpper => match dec with None => up | d => d end
  | Hex => match dec with None => match low with None => up | d => d end | d => d end
  end.
Definition is_digit (b : base) (c : N) : Prop := exists d, digit_of b c = Some d.

(** The digits of a text, other characters left out, and the number they spell. *)
Fixpoint digits_of (b : base) (us : list N) : list N :=
  match us with
  | [] => []
  | c :: us' => match digit_of b c with Some d => d :: digits_of b us' | None => digits_of b us' end
  end.
Definition number (rdx : N) (ds : list N) : N := fold_left (fun a d => a * rdx + d) ds 0.
Definition spelled (b : base) (us : list N) : N := number (radix b) (digits_of b us).

(** Types the library accepts as target: a width of the platform, and a maximum that
    can hold every digit value. *)
Definition ity_ok (t : ity) (b : base) : Prop :=
  radix b <= ity_max t /\
  match t with
  | Int w _ => In w [8; 16; 32; 64; 128]
  | CodePoint => True
  | Bounded w sgn max => In w [8; 16; 32; 64; 128] /\ max <= int_max w sgn
  end.

(** Texts of the digit rules.  [seps] is the separator as a token on the remaining
    input.  [digit_text b sep rest k n]: the first [n] units of [rest] are [k] digits,
    with at most one separator between two neighbouring digits and none at the
    ends. *)
Inductive digit_text (b : base) (sep : list N -> option nat) : list N -> nat -> nat -> Prop :=
| DT_one c r : is_digit b c -> digit_text b sep (c :: r) 1 1
| DT_next c r k n : is_digit b c -> digit_text b sep r k n -> digit_text b sep (c :: r) (S k) (S n)
| DT_sep c r m k n : is_digit b c -> sep r = Some m -> digit_text b sep (skipn m r) k n ->
    digit_text b sep (c :: r) (S k) (S (m + n)).

(** What follows is neither a digit nor a separator. *)
Definition stops (b : base) (sep : list N -> option nat) (rest : list N) : Prop :=
  sep rest = None /\ match rest with c :: _ => ~ is_digit b c | [] => True end.

(** A separator token that matches inside the input and never where a digit is. *)
Definition sep_token (b : base) (sep : list N -> option nat) : Prop :=
  forall rest m, sep rest = Some m ->
    (1 <= m <= length rest)%nat /\ match rest with c :: _ => ~ is_digit b c | [] => True end.

(** The text ends with a digit. *)
Definition ends_with_digit (b : base) (us : list N) : Prop :=
  exists us' c, us = us' ++ [c] /\ is_digit b c.

(** [n] digits and not more. *)
Definition maximal_digits (b : base) (rest : list N) (n : nat) : Prop :=
  (n <= length rest)%nat /\ Forall (is_digit b) (firstn n rest) /\
  match skipn n rest with c :: _ => ~ is_digit b c | [] => True end.

(** What a user sees of an integer rule: the value and its end, whether an overflow was
    reported; and exactness of the value spelled by the first [n] units. *)
Definition int_value (r : int_result) : option (N * nat) :=
  match r with IValue _ v e => Some (v, e) | _ => None end.
Definition int_events (r : int_result) : list iev :=
  match r with IValue evs _ _ | IFail evs => evs | IUB => [] end.
Definition overflow_reported (r : int_result) : Prop := exists b e, In (IOverflow b e) (int_events r).

Definition int_exact (t : ity) (b : base) (rest : list N) (n : nat) (r : int_result) : Prop :=
  exists v, int_value r = Some (v, n) /\
    (spelled b (firstn n rest) <= ity_max t -> v = spelled b (firstn n rest) /\ ~ overflow_reported r) /\
    (ity_max t < spelled b (firstn n rest) -> overflow_reported r).

(** Code units fit in 32 bits. *)
Definition units32 (us : list N) : Prop := Forall (fun c => c < 2 ^ 32) us.
