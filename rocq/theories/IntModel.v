(** Model of the digit tokens and of integer conversion.
    Source: include/lexy/dsl/digit.hpp, dsl/integer.hpp, dsl/sign.hpp is not modelled. *)
From Verif Require Import Prelude SwarModel.
Open Scope N_scope.

(** dsl/digit.hpp:18-237: the bases; their character class is
    [class_table] of the class below. *)
Inductive base := Binary | Octal | Decimal | HexLower | HexUpper | Hex.
Definition base_class (b : base) : ascii_class :=
  match b with
  | Binary => Cbinary | Octal => Coctal | Decimal => Cdecimal
  | HexLower => Chex_lower | HexUpper => Chex_upper | Hex => Chex
  end.
(** [digit_radix] *)
Definition radix (b : base) : N :=
  match b with Binary => 2 | Octal => 8 | Decimal => 10 | HexLower | HexUpper | Hex => 16 end.

(** [unsigned] arithmetic, 32 bits: [static_cast<unsigned>(c) - k + a]. *)
Definition usub (c k a : N) : N := (c + 2 ^ 32 - k + a) mod 2 ^ 32.

(** [digit_value] (digit.hpp:38-42, 73-77, 108-112, 143-152, 179-188, 217-228).  [c] is a
    unit as an unsigned value; for a signed [char] the comparisons of negative
    values with 'a' or 'A' come out differently, see [digit_value_neg]. *)
Definition digit_value (b : base) (c : N) : N :=
  match b with
  | Binary | Octal | Decimal => usub c 0x30 0
  | HexLower =>
    if 0x61 <=? c then usub c 0x61 10
    else if c <=? 0x39 then usub c 0x30 0 else 2 ^ 32 - 1
  | HexUpper =>
    if 0x41 <=? c then usub c 0x41 10
    else if c <=? 0x39 then usub c 0x30 0 else 2 ^ 32 - 1
  | Hex =>
    if 0x61 <=? c then usub c 0x61 10
    else if 0x41 <=? c then usub c 0x41 10
    else if c <=? 0x39 then usub c 0x30 0 else 2 ^ 32 - 1
  end.
(** The same for a negative [char] of value [c - 256], 0x80 <= c < 0x100: it is
    below 'a', 'A' and '9', and [static_cast<unsigned>] adds 2^32. *)
Definition digit_value_neg (c : N) : N := (2 ^ 32 - 0x100 + c - 0x30) mod 2 ^ 32.

(** [lexy::try_match_token(digit<Base>, reader)] on the remaining units. *)
Definition match_digit (b : base) (rest : list N) : bool :=
  match rest with c :: _ => class_table (base_class b) c | [] => false end.

(** digit.hpp:311-314: [while (try_match_token(digit<Base>, reader)) {}]. *)
Fixpoint digit_run (b : base) (rest : list N) : nat :=
  match rest with
  | c :: r => if class_table (base_class b) c then S (digit_run b r) else O
  | [] => O
  end.

(** The outcome of a token: success, units up to [end], and for the
    no_leading_zero rules whether a zero was forbidden. *)
Record tok := Tok { t_ok : bool; t_end : nat; t_zero : bool }.

(** digit.hpp:293-317 [_match_digits] on a reader without SWAR (the SWAR version is
    [SwarModel.digits_swar]). *)
Definition match_digits (b : base) (rest : list N) : bool * nat :=
  if match_digit b rest then (true, S (digit_run b (tl rest))) else (false, O).

(** digit.hpp:318-351 [_match_digits_sep], likewise.  [sep] is the separator token:
    from the remaining units the length of its match.  The model's fuel is the
    number of remaining units; [None]: it ran out. *)
Fixpoint sep_loop (fuel : nat) (b : base) (sep : list N -> option nat) (rest : list N) (pos : nat)
  : option (bool * nat) :=
  match fuel with
  | O => None
  | S fuel' =>
    match sep rest with
    | Some n =>
      let rest' := skipn n rest in
      if match_digit b rest' then sep_loop fuel' b sep (tl rest') (pos + n + 1)
      else Some (false, (pos + n)%nat)
    | None =>
      if match_digit b rest then sep_loop fuel' b sep (tl rest) (pos + 1)
      else Some (true, pos)
    end
  end.
Definition match_digits_sep (b : base) (sep : list N -> option nat) (rest : list N)
  : option (bool * nat) :=
  if match_digit b rest then sep_loop (S (length rest)) b sep (tl rest) 1
  else Some (false, O).

(** digit.hpp:508-513 [_digits::tp::try_parse]. *)
Definition digits_tok (b : base) (rest : list N) : tok :=
  let (ok, n) := match_digits b rest in Tok ok n false.
(** The leading zero check of digit.hpp:373-382 and 458-467. *)
Definition leading_zero (rest : list N) (ok : bool) (n : nat) : tok :=
  if ok && negb (1 =? n)%nat && (match rest with c :: _ => c =? 0x30 | [] => false end)
  then Tok false 1 true
  else Tok ok n false.
(** digit.hpp:451-470 [_digits_t::tp::try_parse]. *)
Definition digits_t_tok (b : base) (rest : list N) : tok :=
  let (ok, n) := match_digits b rest in leading_zero rest ok n.
(** digit.hpp:416-421 [_digits_s::tp::try_parse], 366-385 [_digits_st::tp::try_parse]. *)
Definition digits_s_tok (b : base) (sep : list N -> option nat) (rest : list N) : option tok :=
  match match_digits_sep b sep rest with
  | None => None
  | Some (ok, n) => Some (Tok ok n false)
  end.
Definition digits_st_tok (b : base) (sep : list N -> option nat) (rest : list N) : option tok :=
  match match_digits_sep b sep rest with
  | None => None
  | Some (ok, n) => Some (leading_zero rest ok n)
  end.

(** digit.hpp:613-619 [_ndigits::tp::try_parse]: the fold over N indices. *)
Fixpoint ndigits_loop (n : nat) (b : base) (rest : list N) (pos : nat) : tok :=
  match n with
  | O => Tok true pos false
  | S n' => if match_digit b rest then ndigits_loop n' b (tl rest) (S pos) else Tok false pos false
  end.
Definition ndigits_tok (n : nat) (b : base) (rest : list N) : tok := ndigits_loop n b rest 0.
(** digit.hpp:572-587 [_ndigits_s::tp::try_parse]: the separator is optional. *)
Fixpoint ndigits_s_loop (n : nat) (b : base) (sep : list N -> option nat) (rest : list N) (pos : nat)
  : tok :=
  match n with
  | O => Tok true pos false
  | S n' =>
    let k := match sep rest with Some k => k | None => 0%nat end in
    let rest' := skipn k rest in
    if match_digit b rest' then ndigits_s_loop n' b sep (tl rest') (pos + k + 1)
    else Tok false (pos + k) false
  end.
Definition ndigits_s_tok (n : nat) (b : base) (sep : list N -> option nat) (rest : list N) : tok :=
  if match_digit b rest then ndigits_s_loop (n - 1) b sep (tl rest) 1 else Tok false 0 false.

(** ** integer.hpp *)
(** integer.hpp:17-31 [_digit_count]; the fuel covers every 128-bit value. *)
Fixpoint digit_count_loop (fuel : nat) (rdx value : N) : nat :=
  match fuel with
  | O => O
  | S fuel' => if value =? 0 then O else S (digit_count_loop fuel' rdx (value / rdx))
  end.
Definition digit_count (rdx value : N) : nat :=
  if value =? 0 then 1%nat else digit_count_loop 129 rdx value.

(** The target types: integer_traits<T> for the built-in integers of [w] bits
    (integer.hpp:34-133), for code_point (135-163) and for bounded<T, Max> (183-205).
    [unsigned] has 32 bits. *)
Inductive ity := Int (w : N) (sgn : bool) | CodePoint | Bounded (w : N) (sgn : bool) (max : N).

(** integer.hpp:40-80 [_max]. *)
Definition int_max (w : N) (sgn : bool) : N := if sgn then 2 ^ (w - 1) - 1 else 2 ^ w - 1.
(** The bound the digit count is computed from (81-82, 142, 195). *)
Definition ity_max (t : ity) : N :=
  match t with Int w sgn => int_max w sgn | CodePoint => 0x10FFFF | Bounded _ _ max => max end.
Definition max_digit_count (t : ity) (rdx : N) : nat := digit_count rdx (ity_max t).

(** integer.hpp:84-88 [add_digit_unchecked].  [None]: the result is not representable
    in a signed type (undefined or implementation-defined behaviour); unsigned types
    wrap around. *)
Definition int_add_unchecked (w : N) (sgn : bool) (rdx v d : N) : option N :=
  let x := v * rdx + d in
  if sgn then if x <=? int_max w sgn then Some x else None
  else Some (x mod 2 ^ w).
(** integer.hpp:144-150 (code_point: through uint_least32_t), 197-200 (bounded). *)
Definition add_unchecked (t : ity) (rdx v d : N) : option N :=
  match t with
  | Int w sgn | Bounded w sgn _ => int_add_unchecked w sgn rdx v d
  | CodePoint => int_add_unchecked 32 false rdx v d
  end.

(** integer.hpp:116-131: the general case of [add_digit_checked]; the result is the
    return value and the new [result].  [T(result * Radix)] is exact because it is
    reached only for [result <= _max / Radix]. *)
Definition int_add_general (max rdx v d : N) : bool * N :=
  if max / rdx <? v then (false, v)
  else
    let v1 := v * rdx in
    if max - d <? v1 then (false, v1) else (true, v1 + d).
(** integer.hpp:92-103 [can_use_unsigned]. *)
Definition can_use_unsigned (w : N) (sgn : bool) (rdx : N) : bool :=
  if 32 <=? w then false
  else fst (int_add_general (int_max 32 false) rdx (int_max w sgn) (rdx - 1)).
(** integer.hpp:90-132 [add_digit_checked]. *)
Definition int_add_checked (w : N) (sgn : bool) (rdx v d : N) : bool * N :=
  if can_use_unsigned w sgn rdx then
    let value := (v * rdx + d) mod 2 ^ 32 in
    if int_max w sgn <? value then (false, v) else (true, value)
  else int_add_general (int_max w sgn) rdx v d.
Definition add_checked (t : ity) (rdx v d : N) : bool * N :=
  match t with
  | Int w sgn => int_add_checked w sgn rdx v d
  | CodePoint =>                                                               (* l.152-160 *)
    let (ok, v') := int_add_checked 32 false rdx v d in
    if ok then (v' <=? 0x10FFFF, v') else (false, v)
  | Bounded w sgn max =>                                                       (* l.201-204 *)
    let (ok, v') := int_add_checked w sgn rdx v d in (ok && (v' <=? max), v')
  end.

(** Outcome of a conversion: value and overflow flag, or undefined behaviour. *)
Inductive conv := Conv (value : N) (overflow : bool) | ConvUB.

(** integer.hpp:239-270 [_unbounded_integer_parser::parse]. *)
Fixpoint unbounded_from (t : ity) (b : base) (us : list N) (value : N) : conv :=
  match us with
  | [] => Conv value false
  | c :: us' =>
    let d := digit_value b c in
    if radix b <=? d then unbounded_from t b us' value
    else match add_unchecked t (radix b) value d with
         | None => ConvUB
         | Some v => unbounded_from t b us' v
         end
  end.
Definition unbounded_parse (t : ity) (b : base) (us : list N) : conv := unbounded_from t b us 0.

(** integer.hpp:291-304: the first non-zero digit and what follows it. *)
Fixpoint first_nonzero (b : base) (us : list N) : option (N * list N) :=
  match us with
  | [] => None
  | c :: us' =>
    let d := digit_value b c in
    if negb (d =? 0) && (d <? radix b) then Some (d, us') else first_nonzero b us'
  end.
(** integer.hpp:315-323: the next digit; without [AssumeOnlyDigits] other units are
    skipped. *)
Fixpoint next_digit (assume : bool) (b : base) (us : list N) : option (N * list N) :=
  match us with
  | [] => None
  | c :: us' =>
    let d := digit_value b c in
    if assume then Some (d, us')
    else if radix b <=? d then next_digit assume b us' else Some (d, us')
  end.
(** integer.hpp:311-340: the loop with [k = max_digit_count - digit_count]
    iterations left. *)
Fixpoint bounded_loop (k : nat) (t : ity) (b : base) (assume : bool) (us : list N) (value : N) : conv :=
  match k with
  | O => Conv value (negb (match us with [] => true | _ => false end))         (* l.338-340 *)
  | S k' =>
    match next_digit assume b us with
    | None => Conv value false
    | Some (d, us') =>
      match k' with
      | O =>                                                                   (* l.327-332 *)
        let (ok, v) := add_checked t (radix b) value d in
        if ok then bounded_loop k' t b assume us' v else Conv v true
      | S _ =>                                                                 (* l.333-337 *)
        match add_unchecked t (radix b) value d with
        | None => ConvUB
        | Some v => bounded_loop k' t b assume us' v
        end
      end
    end
  end.
(** integer.hpp:274-342 [_bounded_integer_parser::parse]. *)
Definition bounded_parse (t : ity) (b : base) (assume : bool) (us : list N) : conv :=
  match first_nonzero b us with
  | None => Conv 0 false
  | Some (d, us') => bounded_loop (max_digit_count t (radix b) - 1) t b assume us' d
  end.

(** integer.hpp:225-234 [_ndigits_can_overflow] and 368-382: the parser for n_digits. *)
Definition ndigits_parse (n : nat) (t : ity) (b : base) (assume : bool) (us : list N) : conv :=
  if (max_digit_count t (radix b) <=? n)%nat then bounded_parse t b assume us
  else unbounded_parse t b us.

(** integer.hpp:388-479 [_int::p::parse] up to the continuation: the events raised,
    and on success the value passed on and the end position. *)
Inductive iev :=
| IToken (b e : nat)          (* token event with the token's own kind *)
| IDigits (b e : nat)         (* the digits token of the recovery *)
| ITokenError                 (* the error of the digits token *)
| IOverflow (b e : nat)       (* integer_overflow, or the Tag *)
| IRecoveryStart (p : nat) | IRecoveryFinish (p : nat).
Inductive int_result := IFail (evs : list iev) | IValue (evs : list iev) (v : N) (e : nat) | IUB.
Definition int_p (b : base) (conv_of : list N -> conv) (t : tok) (rest : list N) : int_result :=
  let '(evs, e) :=
    if t_ok t then ([IToken 0 (t_end t)], t_end t)
    else
      let e := (t_end t + digit_run b (skipn (t_end t) rest))%nat in           (* l.449-454 *)
      ([ITokenError; IRecoveryStart 0; IDigits 0 e; IRecoveryFinish e], e) in
  if negb (t_ok t) && (e =? 0)%nat then IFail [ITokenError]                    (* l.456-464 *)
  else
    match conv_of (firstn e rest) with
    | ConvUB => IUB
    | Conv v overflow => IValue (evs ++ if overflow then [IOverflow 0 e] else []) v e
    end.
