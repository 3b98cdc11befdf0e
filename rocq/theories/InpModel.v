(** Model of inputs over contiguous memory and the reader they give to the
    parser, of the units an encoding delivers, and of the byte order mark rule.
    Source: include/lexy/input/string_input.hpp, input/range_input.hpp,
    input/base.hpp, encoding.hpp, dsl/bom.hpp, dsl/literal.hpp.

    Memory is one array of units; a unit is its object representation, a number
    below 2^8, 2^16 or 2^32, so a [reinterpret_cast] between character types of
    one size keeps it.  A pointer into the array is an index up to its length;
    the null pointer is [None].  Outcomes the C++ standard or a LEXY_PRECONDITION
    leaves undefined are [None] results of the functions below. *)
From Verif Require Import Prelude CodecModel.
Close Scope N_scope.
Open Scope nat_scope.

(** encoding.hpp:26-200: the encodings of inputs. *)
Inductive ienc := EDefault | EAscii | EUtf8 | EUtf8c | EUtf16 | EUtf32 | EByte.

(** The character types that occur; [CByte] is std::byte.  wchar_t is accepted
    where it has the size of the encoding's type (encoding.hpp:137-141, 161-165)
    and then only reinterpreted. *)
Inductive ctype := CChar | CChar8 | CUchar | CChar16 | CChar32 | CByte.
Definition ctype_eqb (a b : ctype) : bool :=
  match a, b with
  | CChar, CChar | CChar8, CChar8 | CUchar, CUchar
  | CChar16, CChar16 | CChar32, CChar32 | CByte, CByte => true
  | _, _ => false
  end.
Definition cbound (t : ctype) : N :=
  match t with CChar16 => 0x10000 | CChar32 => 0x100000000 | _ => 0x100 end.

(** [char_type] of the encodings: encoding.hpp:29, 60, 86, 110, 134, 158, 182. *)
Definition char_type (e : ienc) : ctype :=
  match e with
  | EDefault | EAscii | EUtf8c => CChar
  | EUtf8 => CChar8
  | EUtf16 => CChar16
  | EUtf32 => CChar32
  | EByte => CUchar
  end.

Section Platform.
(** Whether [char] is signed on the platform. *)
Context (sg : bool).

(** The value of a [char] object whose representation is [u]. *)
Definition schar (u : N) : Z :=
  if (sg && (0x80 <=? u)%N)%bool then Z.of_N u - 256 else Z.of_N u.

(** [eof()]: encoding.hpp:38-41, 69-75, 95-99, 119-123, 143-147, 167-171, 191-194.
    [int_type(0xFF)] of utf8_char_encoding is a [char]. *)
Definition ieof (e : ienc) : Z :=
  match e with
  | EDefault | EByte | EUtf16 => -1
  | EAscii => if sg then -1 else 255
  | EUtf8 => 255
  | EUtf8c => schar 0xFF
  | EUtf32 => 0xFFFFFFFF
  end.

(** [to_int_type(c)]: encoding.hpp:43-54, 77-80, 101-104, 125-128, 149-152,
    173-176, 196-199. *)
Definition to_int (e : ienc) (u : N) : Z :=
  match e with
  | EDefault => Z.of_N u                  (* through unsigned char if char is signed *)
  | EAscii | EUtf8c => schar u
  | EUtf8 | EUtf16 | EUtf32 | EByte => Z.of_N u
  end.

(** ** string_input *)
(** input/string_input.hpp:15-79, the members (l.77-78). *)
Record sinput := Sin { s_data : option nat; s_size : N }.

(** l.27. *)
Definition sin_default : sinput := Sin None 0.
(** l.29-31, 36-39, and l.45-57 with [data()] and [size()] of a view. *)
Definition sin_size (data : nat) (size : N) : sinput := Sin (Some data) size.
(** l.32-34, 40-43; a 64 bit [std::size_t]. *)
Definition sin_range (b e : nat) : sinput :=
  sin_size b (Z.to_N ((Z.of_nat e - Z.of_nat b) mod 2 ^ 64)).

(** l.88-96 [zstring_input]: the loop from [str] on; [None] if it leaves the array. *)
Fixpoint zscan (mem : list N) (p : nat) : option nat :=
  match mem with
  | [] => None
  | u :: mem' => if (u =? 0)%N then Some p else zscan mem' (S p)
  end.
Definition zstring (mem : list N) (str : nat) : option sinput :=
  match zscan (skipn str mem) str with
  | Some e => Some (sin_range str e)
  | None => None
  end.

(** ** The reader *)
(** input/base.hpp:14-68 [_rr] with pointers: [_cur] and [_end]. *)
Record rd := Rd { r_cur : option nat; r_end : option nat }.

Definition ptr_eqb (a b : option nat) : bool :=
  match a, b with
  | None, None => true
  | Some i, Some j => i =? j
  | _, _ => false
  end.
Definition ptr_leb (a b : option nat) : bool :=
  match a, b with
  | None, None => true
  | Some i, Some j => i <=? j
  | _, _ => false
  end.

(** [data + size]: defined up to one past the end of the array, and for the
    null pointer only with zero. *)
Definition ptr_add (mem : list N) (p : option nat) (n : N) : option (option nat) :=
  match p with
  | None => if (n =? 0)%N then Some None else None
  | Some i => if (N.of_nat i + n <=? N.of_nat (length mem))%N
              then Some (Some (i + N.to_nat n)) else None
  end.

(** base.hpp:31-34, the constructor, and string_input.hpp:71-74 [reader()];
    range_input.hpp:40-43 is the same with the two pointers given. *)
Definition rd_make (b e : option nat) : option rd :=
  if ptr_leb b e then Some (Rd b e) else None.
Definition sin_reader (mem : list N) (s : sinput) : option rd :=
  match ptr_add mem (s_data s) (s_size s) with
  | Some e => rd_make (s_data s) e
  | None => None
  end.

(** base.hpp:36-42 [peek]. *)
Definition rd_peek (e : ienc) (mem : list N) (r : rd) : option Z :=
  if ptr_eqb (r_cur r) (r_end r) then Some (ieof e)
  else match r_cur r with
       | Some i => match nth_error mem i with Some u => Some (to_int e u) | None => None end
       | None => None
       end.
(** base.hpp:44-48 [bump]. *)
Definition rd_bump (r : rd) : option rd :=
  if ptr_eqb (r_cur r) (r_end r) then None
  else match r_cur r with Some i => Some (Rd (Some (S i)) (r_end r)) | None => None end.
(** base.hpp:59-63 [reset]; [current()] (l.55-58) is [r_cur]. *)
Definition rd_reset (m : option nat) (r : rd) : option rd :=
  if ptr_leb m (r_end r) then Some (Rd m (r_end r)) else None.

(** A user of a reader: a sequence of calls.  [Save] calls [current()] and keeps
    the marker, [Back k] resets to the [k]-th marker kept so far. *)
Inductive call := Peek | Bump | Position | Save | Back (k : nat).
Inductive seen := SPeek (v : Z) | SPos (p : option nat).

(** All calls, in order, on one reader; the values returned by peek() and
    position().  [None]: undefined behaviour on the way. *)
Fixpoint rd_run (e : ienc) (mem : list N) (r : rd) (ms : list (option nat))
    (calls : list call) : option (list seen) :=
  match calls with
  | [] => Some []
  | Peek :: cs =>
    match rd_peek e mem r, rd_run e mem r ms cs with
    | Some v, Some l => Some (SPeek v :: l)
    | _, _ => None
    end
  | Position :: cs =>
    match rd_run e mem r ms cs with Some l => Some (SPos (r_cur r) :: l) | None => None end
  | Bump :: cs =>
    match rd_bump r with Some r' => rd_run e mem r' ms cs | None => None end
  | Save :: cs => rd_run e mem r (ms ++ [r_cur r]) cs
  | Back k :: cs =>
    match nth_error ms k with
    | Some m => match rd_reset m r with Some r' => rd_run e mem r' ms cs | None => None end
    | None => None
    end
  end.

(** ** The byte order mark *)
(** encoding.hpp:12-24. *)
Inductive endian := Little | Big | ByBom.

(** dsl/bom.hpp:13-38: the bytes of the literal. *)
Definition bom (e : ienc) (en : endian) : list N :=
  match e, en with
  | EUtf8, _ | EUtf8c, _ => [0xEF; 0xBB; 0xBF]%N
  | EUtf16, Little => [0xFF; 0xFE]%N
  | EUtf16, Big => [0xFE; 0xFF]%N
  | EUtf32, Little => [0xFF; 0xFE; 0x00; 0x00]%N
  | EUtf32, Big => [0x00; 0x00; 0xFE; 0xFF]%N
  | _, _ => []
  end.

(** encoding.hpp:290-323 [is_ascii], [transcode_char] for a literal of
    [unsigned char]s: [None] if the assertion of l.317 fails.  The case of
    l.306-313 does not apply to [unsigned char]; without char8_t,
    LEXY_CHAR8_T is [unsigned char] itself ([h8] says whether there is char8_t). *)
Definition transcode_uchar (h8 : bool) (target : ctype) (c : N) : option N :=
  if ctype_eqb target CUchar || (negb h8 && ctype_eqb target CChar8) then Some c
  else if (c <=? 0x7F)%N then Some c else None.

(** All characters of the literal; they are template arguments, so they are
    transcoded whatever the input is. *)
Fixpoint transcode_all (h8 : bool) (target : ctype) (cs : list N) : option (list N) :=
  match cs with
  | [] => Some []
  | c :: cs' =>
    match transcode_uchar h8 target c, transcode_all h8 target cs' with
    | Some x, Some l => Some (x :: l)
    | _, _ => None
    end
  end.

(** dsl/literal.hpp:18-59 [match_literal] on a reader without word access
    (SwarModel.v has the other case, and shows that it is the same):
    whether the literal matched, and the number of units bumped over.  [r] is the
    reader, [cs] what is left of the literal. *)
Fixpoint match_lit (e : ienc) (mem : list N) (r : rd) (n : nat) (cs : list N)
    : option (bool * nat) :=
  match cs with
  | [] => Some (true, n)
  | c :: cs' =>
    match rd_peek e mem r with
    | Some v =>
      if (v =? to_int e c)%Z
      then match rd_bump r with
           | Some r' => match_lit e mem r' (S n) cs'
           | None => None
           end
      else Some (false, n)
    | None => None
    end
  end.

(** dsl/literal.hpp:359-364 [_lit::tp::try_parse] of [dsl::bom<be, en>] on input in
    the encoding [e]; [None] also if the literal cannot be transcoded. *)
Definition bom_parse (h8 : bool) (e : ienc) (mem : list N) (r : rd) (be : ienc) (en : endian)
    : option (bool * nat) :=
  match transcode_all h8 (char_type e) (bom be en) with
  | Some cs => match_lit e mem r 0 cs
  | None => None
  end.

End Platform.
