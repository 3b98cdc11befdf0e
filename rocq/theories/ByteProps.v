(** Property theorems C56: bytes, binary integers and bit patterns. *)
From Coq Require Import Sorted.
From Verif Require Import Prelude ByteModel ByteSpec ByteProofs.
Open Scope N_scope.

(** [bytes<N>] with every predicate: it matches exactly the first [N] bytes if they are there
    and all satisfy the predicate, and otherwise its error is behind the bytes that do. *)
Theorem C56_bytes : forall n p rest,
  (forall e, bytes_try n p rest = (true, e) <->
     e = n /\ (n <= length rest)%nat /\ Forall (satisfies p) (firstn n rest)) /\
  (forall e, bytes_try n p rest = (false, e) <->
     (e < n)%nat /\ (e <= length rest)%nat /\ Forall (satisfies p) (firstn e rest) /\
     (forall b, nth_error rest e = Some b -> ~ satisfies p b)).
Proof. exact bytes_exact. Qed.
Print Assumptions C56_bytes.

(** [padding_bytes<N, V>] takes any [N] bytes and reports exactly those that are not [V], in
    order. *)
Theorem C56_padding : forall n v rest,
  (forall k errs, padding_parse n v rest = Some (k, errs) ->
     k = n /\ (n <= length rest)%nat /\ StronglySorted lt errs /\
     forall p, In p errs <-> (p < n)%nat /\ nth_error rest p <> Some v) /\
  (padding_parse n v rest = None <-> (length rest < n)%nat).
Proof. exact padding_exact. Qed.
Print Assumptions C56_padding.

(** [bintN], [little_bintN], [big_bintN]: the value is the number whose base 256 digits are
    the [N] bytes; they fail exactly if there are fewer bytes. *)
Theorem C56_bint : forall n e rest,
  Forall (fun b => b < 256) rest ->
  (forall k v, bint n e rest = BintValue k v <->
     k = n /\ (n <= length rest)%nat /\ v = number e (firstn n rest)) /\
  (forall k, bint n e rest = BintToken k <-> (length rest < n)%nat /\ k = length rest) /\
  (forall b k, bint n e rest <> BintMismatch b k).
Proof. exact bint_exact. Qed.
Print Assumptions C56_bint.

(** The same with another token rule: it must match exactly [N] bytes, otherwise there is an
    error for the range that it matched. *)
Theorem C56_bint_token : forall n e token rest,
  Forall (fun b => b < 256) rest -> (forall k, token rest = (true, k) -> (k <= length rest)%nat) ->
  (forall k v, bint_parse n e token rest = BintValue k v <->
     k = n /\ token rest = (true, n) /\ v = number e (firstn n rest)) /\
  (forall b k, bint_parse n e token rest = BintMismatch b k <->
     b = 0%nat /\ token rest = (true, k) /\ k <> n) /\
  (forall k, bint_parse n e token rest = BintToken k <-> token rest = (false, k)).
Proof. exact bint_token_exact. Qed.
Print Assumptions C56_bint_token.

(** Every value of the type is the value of exactly one sequence of [N] bytes. *)
Theorem C56_bint_bijective : forall n e,
  (forall l, length l = n -> Forall (fun b => b < 256) l -> number e l < 256 ^ N.of_nat n) /\
  (forall v, v < 256 ^ N.of_nat n ->
     exists l, length l = n /\ Forall (fun b => b < 256) l /\ number e l = v /\
       forall l', length l' = n -> Forall (fun b => b < 256) l' -> number e l' = v -> l' = l).
Proof.
  intros n e. split.
  - intros l <- H. now apply number_bound.
  - intros v Hv. destruct (number_surj e n v Hv) as (l & H1 & H2 & H3). exists l.
    split; [exact H1|]. split; [exact H2|]. split; [exact H3|].
    intros l' H4 H5 H6. apply (number_inj e); congruence.
Qed.
Print Assumptions C56_bint_bijective.

(** [bits(...)] for every list of bit rules that compiles: it consumes one byte if the binary
    digits of the byte, from the most significant one, are as the bit rules say, and fails
    otherwise. *)
Theorem C56_bits : forall rs p rest,
  bits_pattern rs = Some p -> Forall (fun b => b < 256) rest ->
  (bits_try p rest = (true, 1%nat) <-> exists b r, rest = b :: r /\ bits_match rs (binary 8 b)) /\
  (bits_try p rest = (false, 0%nat) <-> ~ exists b r, rest = b :: r /\ bits_match rs (binary 8 b)).
Proof. exact bits_exact. Qed.
Print Assumptions C56_bits.

Example C56_example :
  bint 4 Big [0x12; 0x34; 0x56; 0x78; 0x9A] = BintValue 4 0x12345678 /\
  bint 4 Little [0x12; 0x34; 0x56; 0x78; 0x9A] = BintValue 4 0x78563412 /\
  bint 8 Little [1; 2; 3] = BintToken 3 /\
  bint_parse 2 Big (fun _ => (true, 3%nat)) [1; 2; 3] = BintMismatch 0 3 /\
  bytes_try 3 AsciiByte [0x61; 0x62; 0x80] = (false, 2%nat) /\
  padding_parse 3 0 [0; 7; 0; 1] = Some (3%nat, [1%nat]) /\
  (* 110xxxxx: the lead byte of two UTF-8 units *)
  (let rs := [Bit1; Bit1; Bit0; AnyBits 5] in
   bits_pattern rs = Some (0xE0, 0xC0) /\
   bits_try (0xE0, 0xC0) [0xC3] = (true, 1%nat) /\ bits_try (0xE0, 0xC0) [0xE3] = (false, 0%nat)) /\
  bits_pattern [Nibble 5; AnyBits 2; Bit0; Bit1] = Some (0xF3, 0x51).
Proof. vm_compute. auto 20. Qed.
