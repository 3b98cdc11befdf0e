(** What inputs over memory, their readers and the byte order mark are meant to
    do, in terms of the text only. *)
From Verif Require Import Prelude.
From Verif Require Import CodecModel InpModel.
Close Scope N_scope.
Open Scope nat_scope.

(** The text of [n] units starting at [p]. *)
Definition slice (mem : list N) (p n : nat) : list N := firstn n (skipn p mem).

(** Using a text: [p] units are behind, markers are numbers of units.  What one
    sees is the next unit or that there is none, and how many units are behind. *)
Inductive sight := VUnit (u : N) | VEnd | VAt (p : nat).
Inductive uses (text : list N) : nat -> list nat -> list call -> list sight -> Prop :=
| U_done p ms : uses text p ms [] []
| U_unit p ms cs l u : nth_error text p = Some u -> uses text p ms cs l ->
    uses text p ms (Peek :: cs) (VUnit u :: l)
| U_end p ms cs l : p = length text -> uses text p ms cs l ->
    uses text p ms (Peek :: cs) (VEnd :: l)
| U_at p ms cs l : uses text p ms cs l -> uses text p ms (Position :: cs) (VAt p :: l)
| U_bump p ms cs l : p < length text -> uses text (S p) ms cs l ->
    uses text p ms (Bump :: cs) l
| U_save p ms cs l : uses text p (ms ++ [p]) cs l -> uses text p ms (Save :: cs) l
| U_back p ms cs l k q : nth_error ms k = Some q -> uses text q ms cs l ->
    uses text p ms (Back k :: cs) l.

(** How the reader shows a sight: the next unit as the encoding's integer, the
    end as its end marker, the position as a pointer. *)
Definition shown (sg : bool) (e : ienc) (data : option nat) (v : sight) : seen :=
  match v with
  | VUnit u => SPeek (to_int sg e u)
  | VEnd => SPeek (ieof sg e)
  | VAt p => SPos (match data with Some d => Some (d + p) | None => None end)
  end.

(** The bytes of units of [w] bytes, by byte order. *)
Definition le_bytes (w : nat) (u : N) : list N :=
  map (fun i => (u / 256 ^ N.of_nat i) mod 256)%N (seq 0 w).
Definition bytes_of (en : endian) (w : nat) (us : list N) : list N :=
  concat (map (fun u => match en with Big => rev (le_bytes w u) | _ => le_bytes w u end) us).

(** The byte order mark is U+FEFF written in the encoding and byte order.
    Encodings that are not UTF-8, UTF-16 or UTF-32, and the
    wish to look for a mark, have none. *)
Definition mark (e : ienc) (en : endian) : list N :=
  match e, en with
  | EUtf8, _ | EUtf8c, _ => encode_code_point Utf8 0xFEFF
  | EUtf16, (Little | Big) => bytes_of en 2 (encode_code_point Utf16 0xFEFF)
  | EUtf32, (Little | Big) => bytes_of en 4 (encode_code_point Utf32 0xFEFF)
  | _, _ => []
  end.

(** The longest beginning two texts share. *)
Fixpoint shared (a b : list N) : nat :=
  match a, b with
  | x :: a', y :: b' => if (x =? y)%N then S (shared a' b') else 0
  | _, _ => 0
  end.

(** The Unicode encoding of an input. *)
Definition unicode (e : ienc) : option encoding :=
  match e with
  | EAscii => Some Ascii
  | EUtf8 | EUtf8c => Some Utf8
  | EUtf16 => Some Utf16
  | EUtf32 => Some Utf32
  | EDefault | EByte => None
  end.
