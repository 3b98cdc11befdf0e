(** Property theorems C09-C12: buffers. *)
From Verif Require Import Prelude SwarModel SwarLanes BufferModel BufferSpec BufferProofs BufferReads.
Open Scope N_scope.

(** C09: a buffer obtained without contents has no memory at all: the reader of a
    default-constructed or moved-from sentinel buffer dereferences null on the
    first [peek()] (buffer.hpp:150-152, 194-199, 265-268). *)
Theorem C09_empty_buffer_refuted : exists os s,
  run_ops true 0xFF 0 init_state os = Some s /\ observe s 0 = Some [] /\
  reader_mem s 0 = Some None.
Proof. exists [ODefault 0 0]. eexists. split; [reflexivity|]. split; reflexivity. Qed.
Print Assumptions C09_empty_buffer_refuted.

(** C09, for every buffer that has memory: its reader sees the contents followed
    by end markers up to the end of the allocation, and every unit read and word
    read at a reachable position is inside the allocation.
    Missing from the full statement: buffers without memory (refuted above). *)
Theorem C09_reads_inside_partial : forall w eofc contents p,
  width_ok w ->
  let mem := buffer_mem eofc contents in
  length mem = alloc_size true (length contents) /\
  firstn (length contents) mem = contents /\
  (forall q, (length contents <= q < alloc_size true (length contents))%nat ->
     nth_error mem q = Some eofc) /\
  (reach w eofc mem p ->
     (p <= length contents)%nat /\
     (p + Nat.max 1 (swar_length w) <= length mem)%nat /\
     br_peek mem p <> None /\ peek_swar w mem p <> None).
Proof.
  exact (fun w eofc contents p Hw =>
    conj (buffer_mem_length eofc contents)
   (conj (firstn_app_exact contents _)
   (conj (buffer_eof eofc contents)
         (fun H => conj (reach_bound w eofc contents p Hw H)
            (eq_ind_r (fun n => (p + Nat.max 1 (swar_length w) <= n)%nat /\ _ /\ _)
               (reads_inside w eofc contents p Hw H) (buffer_mem_length eofc contents)))))).
Qed.
Print Assumptions C09_reads_inside_partial.

Example C09_nonvacuous :
  reach 8 0xFF (buffer_mem 0xFF [0x61; 0x62; 0x63]) 3 /\ length (buffer_mem 0xFF [0x61; 0x62; 0x63]) = 16%nat.
Proof.
  split; [|reflexivity].
  apply (reach_bump _ _ _ 2 0x63); [|reflexivity|discriminate].
  apply (reach_bump _ _ _ 1 0x62); [|reflexivity|discriminate].
  apply (reach_bump _ _ _ 0 0x61); [constructor|reflexivity|discriminate].
Qed.

(** C10: for every sequence of constructions, copies, moves, assignments, releases,
    adoptions and destructions that is legal for plain variables holding lists of
    units, the buffers perform no undefined memory operation, every variable holds
    exactly the units it should (in order, with that size), reading memory of a
    non-empty one is its contents followed by end markers, and when all variables
    are gone no memory is left. *)
Theorem C10_buffer_operations : forall sentinel eofc junk os v,
  spec_run (fun _ => None) os = Some v ->
  exists s, run_ops sentinel eofc junk init_state os = Some s /\
    (forall r, observe s r = match v r with None => None | Some (_, l) => Some l end) /\
    (forall r res l m, v r = Some (res, l) -> reader_mem s r = Some (Some m) ->
       m = l ++ repeat eofc (alloc_size sentinel (length l) - length l)) /\
    (forall r res l, v r = Some (res, l) -> l <> [] -> exists m, reader_mem s r = Some (Some m)) /\
    ((forall r, v r = None) -> forall p, st_heap s p = None).
Proof. exact buffer_ops_ok. Qed.
Print Assumptions C10_buffer_operations.

(** C10, copying an input by reading it: exactly the units before the end of input. *)
Theorem C10_from_input : forall eofv units,
  exists rest, units = until_eof_units eofv units ++ rest /\
    Forall (fun u => eofv u = false) (until_eof_units eofv units) /\
    (rest = [] \/ exists u r, rest = u :: r /\ eofv u = true).
Proof. exact until_eof_prefix. Qed.
Print Assumptions C10_from_input.

Example C10_nonvacuous :
  let os := [ORange 0 7 [1; 2; 3]; OBuilder 1 8 [4; 5]; OCopy 2 0; OAssignMove 2 1; OMove 3 0;
             OAssignCopy 1 2; OAssignMove 3 2; ORelease 3 9; OAdopt 4 9] in
  match spec_run (fun _ => None) os, run_ops true 0xFF 0 init_state os with
  | Some _, Some s => map (observe s) [0; 1; 2; 3; 4; 9]%nat
  | _, _ => []
  end = [Some []; Some [4; 5]; Some [1; 2; 3]; Some []; Some [4; 5]; None].
Proof. vm_compute. reflexivity. Qed.

(** C11: on hosts of either byte order, the units are the big- respectively
    little-endian values of the consecutive byte groups; the byte count must be a
    multiple of the unit size (precondition at buffer.hpp:328). *)
Theorem C11_raw_endianness : forall native e width bytes,
  (width = 1 \/ width = 2 \/ width = 4)%nat -> Forall (fun b => b < 256) bytes ->
  Nat.modulo (length bytes) width = 0%nat ->
  exists units, make_buffer native e width bytes = Some units /\
    decodes (match e with Big => be_value | Little => le_value end) width bytes units.
Proof. exact make_buffer_decodes. Qed.
Print Assumptions C11_raw_endianness.

Theorem C11_decoding_unique : forall value width,
  (1 <= width)%nat -> forall bytes u1 u2,
  decodes value width bytes u1 -> decodes value width bytes u2 -> u1 = u2.
Proof. exact decodes_unique. Qed.
Print Assumptions C11_decoding_unique.

Example C11_nonvacuous :
  make_buffer Little Big 2 [0x12; 0x34; 0xAB; 0xCD] = Some [0x1234; 0xABCD] /\
  make_buffer Little Little 2 [0x12; 0x34; 0xAB; 0xCD] = Some [0x3412; 0xCDAB] /\
  make_buffer Little Big 4 [0x12; 0x34; 0xAB; 0xCD] = Some [0x1234ABCD] /\
  be_value [0x12; 0x34; 0xAB; 0xCD] = 0x1234ABCD /\ le_value [0x12; 0x34; 0xAB; 0xCD] = 0xCDAB3412.
Proof. repeat split; vm_compute; reflexivity. Qed.

(** C12: a leading mark is removed and selects the byte order; otherwise nothing is
    removed and big endian is used.  True for UTF-8 and UTF-16, false for UTF-32:
    00 00 FE 01 is taken for a mark (buffer.hpp:443 tests [memory[3]] for non-zero
    instead of comparing it with 0xFF). *)
Theorem C12_utf32_bom_refuted : forall native, ~ bom_spec 4 (make_buffer_bom32 native) utf32_marks.
Proof. exact bom32_refuted. Qed.
Print Assumptions C12_utf32_bom_refuted.

Theorem C12_bom_partial : forall native,
  bom_spec 1 (make_buffer_bom8 native) utf8_marks /\
  bom_spec 2 (make_buffer_bom16 native) utf16_marks /\
  (* UTF-32: missing are inputs that start with 00 00 FE without being a mark *)
  (forall mark e rest, In (mark, e) utf32_marks -> Forall (fun b => b < 256) (mark ++ rest) ->
     Nat.modulo (length (mark ++ rest)) 4 = 0%nat ->
     exists units, make_buffer_bom32 native (mark ++ rest) = Some units /\ decodes (value_of e) 4 rest units) /\
  (forall bytes, Forall (fun b => b < 256) bytes -> Nat.modulo (length bytes) 4 = 0%nat ->
     (forall mark e, In (mark, e) utf32_marks -> firstn (length mark) bytes <> mark) ->
     firstn 3 bytes <> [0x00; 0x00; 0xFE] ->
     exists units, make_buffer_bom32 native bytes = Some units /\ decodes (value_of Big) 4 bytes units).
Proof. exact (fun native => conj (bom8_ok native) (conj (bom16_ok native) (bom32_ok native))). Qed.
Print Assumptions C12_bom_partial.

Example C12_nonvacuous :
  make_buffer_bom16 Little [0xFF; 0xFE; 0x41; 0x00] = Some [0x41] /\
  make_buffer_bom16 Little [0xFE; 0xFF; 0x00; 0x41] = Some [0x41] /\
  make_buffer_bom16 Little [0x00; 0x41] = Some [0x41] /\
  make_buffer_bom32 Little [0xFF; 0xFE; 0; 0; 0x41; 0; 0; 0] = Some [0x41].
Proof. repeat split; vm_compute; reflexivity. Qed.
