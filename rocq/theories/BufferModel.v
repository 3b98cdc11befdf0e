(** Model of [lexy::buffer]: allocation, ownership, copying, moving, raw memory
    and byte-order marks.  Source: include/lexy/input/buffer.hpp and
    _detail/swar.hpp:239-247. *)
From Verif Require Import Prelude.
Open Scope N_scope.

(** ** Allocation *)

(** _detail/swar.hpp:239-247 [round_size_for_swar]; [sizeof(swar_int)] is 8. *)
Definition round_size_for_swar (size : nat) : nat :=
  let rem := Nat.modulo size 8 in
  ((if (0 <? rem)%nat then size + (8 - rem) else size) + 8)%nat.

(** buffer.hpp:274-292 [allocate] (and the size computed by the destructor,
    201-212): number of units requested from the resource.  The multiplication by
    [sizeof(char_type)] is the same factor on both sides and is left out. *)
Definition alloc_size (sentinel : bool) (size : nat) : nat :=
  if sentinel then round_size_for_swar (size + 1) else size.

(** buffer.hpp:277-285: the memory after [allocate]; uninitialised units carry an
    arbitrary value [junk]. *)
Definition allocate_mem (sentinel : bool) (eofc junk : N) (size : nat) : list N :=
  repeat junk size ++ repeat eofc (alloc_size sentinel size - size).

(** [std::memcpy] into the front of a block (also [builder] writes): [None] if the
    source does not fit. *)
Definition write_front (mem src : list N) : option (list N) :=
  if (length src <=? length mem)%nat then Some (src ++ skipn (length src) mem) else None.

(** ** Objects.  Buffer variables and blocks are numbered; [b_res] is the memory
    resource ([operator==] on resources is equality of numbers; an empty resource
    class is the case where all numbers are equal).  A slot holds either a buffer
    variable or a pointer the caller got from [release] together with the size and
    resource the caller has to remember; the model does not forbid using the
    latter like a buffer. *)
Record block := Block { bk_res : nat; bk_len : nat; bk_mem : list N }.
Record bufv := Buf { b_res : nat; b_data : option nat; b_size : nat }.
Record state := State {
  st_heap : nat -> option block;       (* live blocks *)
  st_next : nat;                       (* next unused block number *)
  st_regs : nat -> option bufv;        (* live slots *)
}.

Definition upd {A} (f : nat -> A) (k : nat) (v : A) : nat -> A :=
  fun i => if (i =? k)%nat then v else f i.

Section Machine.
Variables (sentinel : bool) (eofc junk : N).

(** Undefined behaviour is [None]. *)

(** buffer.hpp:274-292 *)
Definition do_allocate (s : state) (res size : nat) : state * nat :=
  let p := st_next s in
  (State (upd (st_heap s) p (Some (Block res (alloc_size sentinel size)
                                       (allocate_mem sentinel eofc junk size))))
         (S p) (st_regs s), p).

(** [memcpy(_data, data, size)] (buffer.hpp:158-160), only for [size > 0]. *)
Definition do_write (s : state) (p : nat) (src : list N) : option state :=
  match st_heap s p with
  | None => None
  | Some b =>
    match write_front (bk_mem b) src with
    | None => None
    | Some m => Some (State (upd (st_heap s) p (Some (Block (bk_res b) (bk_len b) m)))
                            (st_next s) (st_regs s))
    end
  end.

(** Reading [size] units through [data()]; null with [size = 0] is allowed. *)
Definition do_read (s : state) (d : option nat) (size : nat) : option (list N) :=
  match d with
  | None => if (size =? 0)%nat then Some [] else None
  | Some p =>
    match st_heap s p with
    | None => None
    | Some b => if (size <=? length (bk_mem b))%nat then Some (firstn size (bk_mem b)) else None
    end
  end.

(** buffer.hpp:201-212 [~buffer]: deallocating a dead block, or with another size
    or another resource than it was allocated with, is undefined. *)
Definition do_free (s : state) (b : bufv) : option state :=
  match b_data b with
  | None => Some s
  | Some p =>
    match st_heap s p with
    | None => None
    | Some bk =>
      if (bk_res bk =? b_res b)%nat && (bk_len bk =? alloc_size sentinel (b_size b))%nat
      then Some (State (upd (st_heap s) p None) (st_next s) (st_regs s))
      else None
    end
  end.

Definition set_reg (s : state) (r : nat) (v : option bufv) : state :=
  State (st_heap s) (st_next s) (upd (st_regs s) r v).

(** buffer.hpp:154-161 [buffer(data, size, resource)]. *)
Definition construct_range (s : state) (res : nat) (src : list N) : option (state * bufv) :=
  let '(s1, p) := do_allocate s res (length src) in
  if (0 <? length src)%nat then
    match do_write s1 p src with
    | None => None
    | Some s2 => Some (s2, Buf res (Some p) (length src))
    end
  else Some (s1, Buf res (Some p) (length src)).

(** buffer.hpp:189-192: copy construction, with the given resource. *)
Definition construct_copy (s : state) (other : bufv) (res : nat) : option (state * bufv) :=
  match do_read s (b_data other) (b_size other) with
  | None => None
  | Some src => construct_range s res src
  end.

(** buffer.hpp:223-243 [operator=(buffer&&)] on registers [dst] and [src]
    (possibly the same object). *)
Definition assign_move (s : state) (dst src : nat) : option state :=
  match st_regs s dst, st_regs s src with
  | Some d, Some o =>
    if (b_res d =? b_res o)%nat then
      let s1 := set_reg s dst (Some (Buf (b_res d) (b_data o) (b_size o))) in
      Some (set_reg s1 src (Some (Buf (b_res o) (b_data d) (b_size d))))
    else
      match construct_copy s o (b_res d) with
      | None => None
      | Some (s1, c) =>
        let s2 := set_reg s1 dst (Some (Buf (b_res d) (b_data c) (b_size c))) in
        do_free s2 (Buf (b_res c) (b_data d) (b_size d))   (* ~copy *)
      end
  | _, _ => None
  end.

Inductive op :=
  | ODefault (r res : nat)                    (* 148-152 *)
  | ORange (r res : nat) (src : list N)       (* 154-161, and all overloads delegating to it *)
  | OBuilder (r res : nat) (src : list N)     (* 108-135: builder(size), fill data(), finish() *)
  | OCopy (r src : nat)                       (* 189 *)
  | OCopyRes (r src res : nat)                (* 190-192 *)
  | OMove (r src : nat)                       (* 194-199 *)
  | OAssignCopy (dst src : nat)               (* 214-220 *)
  | OAssignMove (dst src : nat)               (* 223-243 *)
  | ORelease (r t : nat)                      (* 256-262: the pointer is kept in slot t *)
  | OAdopt (r t : nat)                        (* 137-146: adopt the pointer of slot t *)
  | ODestroy (r : nat).                       (* 201-212 *)

(** One operation.  Constructing into a live variable or using a dead one is not
    expressible in C++; it is reported as [None] too. *)
Definition step (s : state) (o : op) : option state :=
  match o with
  | ODefault r res =>
    match st_regs s r with
    | Some _ => None
    | None => Some (set_reg s r (Some (Buf res None 0)))
    end
  | ORange r res src =>
    match st_regs s r, construct_range s res src with
    | None, Some (s1, b) => Some (set_reg s1 r (Some b))
    | _, _ => None
    end
  | OBuilder r res src =>
    match st_regs s r with
    | Some _ => None
    | None =>
      let '(s1, p) := do_allocate s res (length src) in
      match do_write s1 p src with
      | None => None
      | Some s2 => Some (set_reg s2 r (Some (Buf res (Some p) (length src))))
      end
    end
  | OCopy r src =>
    match st_regs s r, st_regs s src with
    | None, Some o =>
      match construct_copy s o (b_res o) with
      | Some (s1, b) => Some (set_reg s1 r (Some b))
      | None => None
      end
    | _, _ => None
    end
  | OCopyRes r src res =>
    match st_regs s r, st_regs s src with
    | None, Some o =>
      match construct_copy s o res with
      | Some (s1, b) => Some (set_reg s1 r (Some b))
      | None => None
      end
    | _, _ => None
    end
  | OMove r src =>
    match st_regs s r, st_regs s src with
    | None, Some o =>
      Some (set_reg (set_reg s r (Some o)) src (Some (Buf (b_res o) None 0)))
    | _, _ => None
    end
  | OAssignCopy dst src =>
    (* a temporary with our resource, move-assigned, then destroyed; the resources
       are equal, so the assignment swaps *)
    match st_regs s dst, st_regs s src with
    | Some d, Some o =>
      match construct_copy s o (b_res d) with
      | None => None
      | Some (s1, t) =>
        let s2 := set_reg s1 dst (Some (Buf (b_res d) (b_data t) (b_size t))) in
        do_free s2 (Buf (b_res t) (b_data d) (b_size d))
      end
    | _, _ => None
    end
  | OAssignMove dst src => assign_move s dst src
  | ORelease r t =>
    match st_regs s r, st_regs s t with
    | Some b, None =>
      Some (set_reg (set_reg s t (Some b)) r (Some (Buf (b_res b) None 0)))
    | _, _ => None
    end
  | OAdopt r t =>
    match st_regs s r, st_regs s t with
    | None, Some b => Some (set_reg (set_reg s r (Some b)) t None)
    | _, _ => None
    end
  | ODestroy r =>
    match st_regs s r with
    | None => None
    | Some b =>
      match do_free s b with
      | None => None
      | Some s1 => Some (set_reg s1 r None)
      end
    end
  end.

Fixpoint run_ops (s : state) (os : list op) : option state :=
  match os with
  | [] => Some s
  | o :: os' => match step s o with None => None | Some s' => run_ops s' os' end
  end.

Definition init_state : state := State (fun _ => None) 0 (fun _ => None).

(** [size()] and the units [data()[0..size)] of a variable. *)
Definition observe (s : state) (r : nat) : option (list N) :=
  match st_regs s r with
  | None => None
  | Some b => do_read s (b_data b) (b_size b)
  end.

(** The memory a sentinel reader runs over (buffer.hpp:265-271); [None] stands for
    a null pointer. *)
Definition reader_mem (s : state) (r : nat) : option (option (list N)) :=
  match st_regs s r with
  | None => None
  | Some b => match b_data b with
              | None => Some None
              | Some p => match st_heap s p with
                          | None => None
                          | Some bk => Some (Some (bk_mem bk))
                          end
              end
  end.
End Machine.

(** ** Raw memory *)
Inductive endian := Big | Little.

(** The native-endianness branch (buffer.hpp:331-338): the bytes are reinterpreted
    as units by the host. *)
Definition host_value (e : endian) (bs : list N) : N :=
  match e with
  | Little => fold_right (fun b acc => b + 256 * acc) 0 bs
  | Big => fold_left (fun acc b => acc * 256 + b) bs 0
  end.
Fixpoint groups (fuel width : nat) (bytes : list N) : list (list N) :=
  match fuel with
  | O => []
  | S f => match bytes with
           | [] => []
           | _ => firstn width bytes :: groups f width (skipn width bytes)
           end
  end.

(** buffer.hpp:349-361: the byte-swapping branch, with shifts and ors; a unit is
    [static_cast<char_type>] of the result. *)
Definition swap_value (e : endian) (width : nat) (m : list N) : option N :=
  match width, e, m with
  | 2%nat, Little, [a; b] => Some ((N.lor (N.shiftl a 0) (N.shiftl b 8)) mod 2 ^ 16)
  | 2%nat, Big, [a; b] => Some ((N.lor (N.shiftl a 8) (N.shiftl b 0)) mod 2 ^ 16)
  | 4%nat, Little, [a; b; c; d] =>
    Some ((N.lor (N.lor (N.lor (N.shiftl a 0) (N.shiftl b 8)) (N.shiftl c 16)) (N.shiftl d 24)) mod 2 ^ 32)
  | 4%nat, Big, [a; b; c; d] =>
    Some ((N.lor (N.lor (N.lor (N.shiftl a 24) (N.shiftl b 16)) (N.shiftl c 8)) (N.shiftl d 0)) mod 2 ^ 32)
  | _, _, _ => None
  end.

Fixpoint map_opt {A B} (f : A -> option B) (l : list A) : option (list B) :=
  match l with
  | [] => Some []
  | x :: l' => match f x, map_opt f l' with Some y, Some r => Some (y :: r) | _, _ => None end
  end.

(** buffer.hpp:317-368 [_make_buffer<Encoding, Endian>] for a host of byte order
    [native]; [width] is [sizeof(char_type)].  [None]: the precondition
    [size % sizeof(char_type) == 0] fails. *)
Definition make_buffer (native e : endian) (width : nat) (bytes : list N) : option (list N) :=
  if negb (Nat.modulo (length bytes) width =? 0)%nat then None
  else
    let gs := groups (length bytes) width bytes in
    if (width =? 1)%nat || (match native, e with Big, Big | Little, Little => true | _, _ => false end)
    then Some (map (host_value native) gs)
    else map_opt (swap_value e width) gs.

(** buffer.hpp:370-406: UTF-8 with byte-order mark. *)
Definition make_buffer_bom8 (native : endian) (bytes : list N) : option (list N) :=
  match bytes with
  | a :: b :: c :: rest =>
    if (a =? 0xEF) && (b =? 0xBB) && (c =? 0xBF) then make_buffer native Big 1 rest
    else make_buffer native Big 1 bytes
  | _ => make_buffer native Big 1 bytes
  end.
(** buffer.hpp:408-427: UTF-16. *)
Definition make_buffer_bom16 (native : endian) (bytes : list N) : option (list N) :=
  match bytes with
  | a :: b :: rest =>
    if (a =? 0xFF) && (b =? 0xFE) then make_buffer native Little 2 rest
    else if (a =? 0xFE) && (b =? 0xFF) then make_buffer native Big 2 rest
    else make_buffer native Big 2 bytes
  | _ => make_buffer native Big 2 bytes
  end.
(** buffer.hpp:428-449: UTF-32; note [memory[3]] at l.443. *)
Definition make_buffer_bom32 (native : endian) (bytes : list N) : option (list N) :=
  match bytes with
  | a :: b :: c :: d :: rest =>
    if (a =? 0xFF) && (b =? 0xFE) && (c =? 0x00) && (d =? 0x00) then make_buffer native Little 4 rest
    else if (a =? 0x00) && (b =? 0x00) && (c =? 0xFE) && negb (d =? 0) then make_buffer native Big 4 rest
    else make_buffer native Big 4 bytes
  | _ => make_buffer native Big 4 bytes
  end.

(** buffer.hpp:456-493 [make_buffer_from_input], reader branch: copy up to the
    first unit whose [peek()] equals [eof()]; a reader over [units] gives eof at
    their end. *)
Fixpoint until_eof_units (eofv : N -> bool) (units : list N) : list N :=
  match units with
  | [] => []
  | u :: r => if eofv u then [] else u :: until_eof_units eofv r
  end.
