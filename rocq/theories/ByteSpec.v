(** Specification vocabulary for bytes, binary integers and bit patterns. *)
From Verif Require Import Prelude ByteModel.
Open Scope N_scope.

(** What a byte must be to satisfy a predicate. *)
Definition satisfies (p : byte_pred) (b : N) : Prop :=
  match p with
  | AnyByte => True
  | IfByte f => f b = true
  | RangeByte low high => low <= b <= high
  | SetByte bytes => In b bytes
  | AsciiByte => b < 128
  end.

(** The number written with these base 256 digits, most significant digit first. *)
Fixpoint big_endian (bytes : list N) : N :=
  match bytes with
  | [] => 0
  | b :: l => b * 256 ^ N.of_nat (length l) + big_endian l
  end.
(** Least significant digit first. *)
Fixpoint little_endian (bytes : list N) : N :=
  match bytes with
  | [] => 0
  | b :: l => b + 256 * little_endian l
  end.
Definition number (e : endianness) (bytes : list N) : N :=
  match e with Big => big_endian bytes | Little => little_endian bytes end.

(** The binary digits of a byte, from the most significant one. *)
Fixpoint binary (n : nat) (b : N) : list bool :=
  match n with
  | O => []
  | S n' => N.testbit b (N.of_nat n') :: binary n' b
  end.

(** A sequence of binary digits is as the bit rules say, from left to right. *)
Inductive bits_match : list bit_rule -> list bool -> Prop :=
| match_nil : bits_match [] []
| match_0 rs l : bits_match rs l -> bits_match (Bit0 :: rs) (false :: l)
| match_1 rs l : bits_match rs l -> bits_match (Bit1 :: rs) (true :: l)
| match_nibble v rs l : bits_match rs l -> bits_match (Nibble v :: rs) (binary 4 v ++ l)
| match_any n rs any l : length any = n -> bits_match rs l -> bits_match (AnyBits n :: rs) (any ++ l).
