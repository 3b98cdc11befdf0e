(** Model of the rules for bytes: [byte], [bytes], [padding_bytes], the binary integers
    [bint8] ... [big_bint64], and [bits].
    Source: include/lexy/dsl/byte.hpp, include/lexy/dsl/bits.hpp.

    The reader is the list of the remaining bytes.  The encoding is byte_encoding, whose
    [int_type] is [int] and whose eof is -1: a byte never is the eof value, so [peek() == eof]
    is the end of the list. *)
From Verif Require Import Prelude.
Open Scope N_scope.

(** ** bytes *)

(** byte.hpp:26-34, 68-129: the predicates ([if_] with any user predicate, [range], [set],
    [ascii], none). *)
Inductive byte_pred :=
| AnyByte
| IfByte (p : N -> bool)
| RangeByte (low high : N)
| SetByte (bytes : list N)
| AsciiByte.
Definition pred_ok (p : byte_pred) (b : N) : bool :=
  match p with
  | AnyByte => true
  | IfByte f => f b
  | RangeByte low high => (low <=? b) && (b <=? high)
  | SetByte bytes => existsb (N.eqb b) bytes
  | AsciiByte => b <=? 0x7F
  end.

(** byte.hpp:48-55 [_b<N, Predicate>::tp::try_parse]: the fold expression over [&&]; success and
    [end]. *)
Fixpoint bytes_try (n : nat) (p : byte_pred) (rest : list N) : bool * nat :=
  match n with
  | O => (true, 0%nat)
  | S n' =>
    match rest with
    | [] => (false, 0%nat)
    | b :: rest' =>
      if pred_ok p b then let '(ok, e) := bytes_try n' p rest' in (ok, S e) else (false, 0%nat)
    end
  end.

(** ** padding_bytes *)

(** byte.hpp:152-164 [_pb::_validate]: the positions of the errors. *)
Fixpoint validate (padding : N) (pos : nat) (consumed : list N) : list nat :=
  match consumed with
  | [] => []
  | b :: l => if b =? padding then validate padding (S pos) l else pos :: validate padding (S pos) l
  end.
(** byte.hpp:166-213 [_pb::bp] and [_pb::p], which do the same: [None] if the bytes are missing
    (as a rule with the error of [bytes]), otherwise the number of bytes consumed and the
    errors.  The rule goes on in both cases. *)
Definition padding_parse (n : nat) (padding : N) (rest : list N) : option (nat * list nat) :=
  match bytes_try n AnyByte rest with
  | (true, e) => Some (e, validate padding 0 (firstn e rest))
  | (false, _) => None
  end.

(** ** bint *)
Inductive endianness := Little | Big.

(** byte.hpp:237-256 [bint<N>]: the integer types have at least [8 * N] bits; the conversion to
    them is the one of a type with exactly that many bits. *)
Definition to_bint (n : nat) (x : N) : N := x mod 2 ^ (8 * N.of_nat n).

(** The fold expressions byte.hpp:305-307 and 314-316. *)
Definition shift_in (n : nat) (result : N) (b : N) : N :=
  to_bint n (N.lor (to_bint n (N.shiftl result 8)) b).

(** byte.hpp:295-317: the value; [bytes] has [n] elements. *)
Definition bint_value (n : nat) (e : endianness) (bytes : list N) : N :=
  match n with
  | 1%nat => hd 0 bytes
  | _ =>
    match e with
    | Big => fold_left (shift_in n) bytes 0
    | Little => fold_left (shift_in n) (rev bytes) 0
    end
  end.

(** What the rule does: the token rule fails at [e]; it matches a wrong number of bytes, with
    an error for their range; or it consumes the bytes and produces the value. *)
Inductive bint_result := BintToken (e : nat) | BintMismatch (b e : nat) | BintValue (consumed : nat) (v : N).

(** byte.hpp:272-378 [_bint<N, Endianness, Rule>]: [_pc], [p] and [bp] (which is taken if the
    token matches); [token] is [try_parse] of the token rule, with its end. *)
Definition bint_parse (n : nat) (e : endianness) (token : list N -> bool * nat) (rest : list N) : bint_result :=
  match token rest with
  | (false, k) => BintToken k
  | (true, k) =>
    if (k =? n)%nat then BintValue k (bint_value n e (firstn k rest))
    else BintMismatch 0 k
  end.
Definition bint (n : nat) (e : endianness) : list N -> bint_result :=
  bint_parse n e (bytes_try n AnyByte).

(** ** bits *)

(** bits.hpp:19-95: the bit rules. *)
Inductive bit_rule := Bit0 | Bit1 | Nibble (value : N) | AnyBits (n : nat).
Definition bit_size (r : bit_rule) : nat :=
  match r with Bit0 | Bit1 => 1 | Nibble _ => 4 | AnyBits n => n end.

(** [x <<= n] on [unsigned], of at least 32 bits. *)
Definition shl (x : N) (n : nat) : N := N.shiftl x (N.of_nat n) mod 2 ^ 32.

(** bits.hpp:26-32, 42-49, 62-69, 83-87 [apply]; the pattern is (mask, value). *)
Definition bit_apply (p : N * N) (r : bit_rule) : N * N :=
  let '(mask, value) := p in
  match r with
  | Bit0 => (N.lor (shl mask 1) 1, shl value 1)
  | Bit1 => (N.lor (shl mask 1) 1, N.lor (shl value 1) 1)
  | Nibble v => (N.lor (shl mask 4) 15, N.lor (shl value 4) v)
  | AnyBits n => (shl mask n, shl value n)
  end.

(** bits.hpp:135-148 [bits], [None] if its static assertions fail; the pattern. *)
Definition bit_ok (r : bit_rule) : bool :=
  match r with Nibble v => v <=? 15 | AnyBits n => (0 <? n)%nat | _ => true end.
Definition bits_pattern (rs : list bit_rule) : option (N * N) :=
  if forallb bit_ok rs && (list_sum (map bit_size rs) =? 8)%nat
  then Some (fold_left bit_apply rs (0, 0)) else None.

(** bits.hpp:111-123 [_bits<Mask, Value>::tp::try_parse]. *)
Definition bits_try (p : N * N) (rest : list N) : bool * nat :=
  match rest with
  | [] => (false, 0%nat)
  | b :: _ => if N.land b (fst p) =? snd p then (true, 1%nat) else (false, 0%nat)
  end.
