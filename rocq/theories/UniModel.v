(** Model of the Unicode database lookups, of [lexy::code_point]'s classification, of
    [lexy::simple_case_fold], and of the character classes of [lexy::dsl::unicode] and
    [lexy::dsl::code_point].
    Source: include/lexy/_detail/unicode_database.hpp, code_point.hpp, dsl/unicode.hpp,
    dsl/code_point.hpp.

    [None] stands for undefined behaviour: a violated precondition or an array access
    out of bounds. *)
From Verif Require Import Prelude CodecModel SwarModel LitModel ClassModel UniTables.
Open Scope N_scope.

Definition then_ {A B} (o : option A) (f : A -> option B) : option B :=
  match o with Some x => f x | None => None end.
Definition array_at {A} (a : list A) (i : N) : option A := nth_error a (N.to_nat i).

(** unicode_database.hpp:8-12 [block_starts], 13-52 [blocks]. *)
Definition block_starts : list N := concat block_starts_pieces.
Definition blocks : list N := concat blocks_pieces.

(** unicode_database.hpp:54-63 [property_index]. *)
Definition property_index (cp : N) : option N :=
  if cp <=? 0x10FFFF then                                                      (* l.56 *)
    let high := N.land (N.shiftr cp 8) 0xFFFF in
    let low := N.land cp 0xFF in
    then_ (array_at block_starts high) (fun block_start =>                     (* l.60 *)
    array_at blocks (block_start * 256 + low))                                 (* l.61-62 *)
  else None.

(** ** code_point.hpp: classification *)
(** code_point.hpp:32-35 [is_ascii], 36-39 [is_bmp]; 40-43 [is_valid], 49-52
    [is_surrogate] and 70-73 [is_scalar] are [cp_is_valid], [cp_is_surrogate] and
    [cp_is_scalar] of CodecModel. *)
Definition is_ascii (cp : N) : bool := cp <=? 0x7F.
Definition is_bmp (cp : N) : bool := cp <=? 0xFFFF.
(** code_point.hpp:45-48. *)
Definition is_control (cp : N) : bool := (cp <=? 0x1F) || ((0x7F <=? cp) && (cp <=? 0x9F)).
(** code_point.hpp:53-58. *)
Definition is_private_use (cp : N) : bool :=
  ((0xE000 <=? cp) && (cp <=? 0xF8FF))
  || ((0x0F0000 <=? cp) && (cp <=? 0x0FFFFD))
  || ((0x100000 <=? cp) && (cp <=? 0x10FFFD)).
(** code_point.hpp:59-68. *)
Definition is_noncharacter (cp : N) : bool :=
  if (0xFDD0 <=? cp) && (cp <=? 0xFDEF) then true
  else let in_plane := N.land cp 0xFFFF in (in_plane =? 0xFFFE) || (in_plane =? 0xFFFF).

(** code_point.hpp:260-267 [general_category]. *)
Definition general_category (cp : N) : option category_t :=
  if negb (cp_is_valid cp) then Some Cn
  else then_ (property_index cp) (array_at category).

(** code_point.hpp:269-277 [simple_case_fold]; the sum of the signed numbers is
    converted back to the 32 bits of [char32_t]. *)
Definition simple_case_fold_db (cp : N) : option N :=
  if negb (cp_is_valid cp) then Some cp
  else then_ (property_index cp) (fun idx =>
       then_ (array_at case_folding_offset idx) (fun offset =>
       Some (Z.to_N ((Z.of_N cp + offset) mod 2 ^ 32)))).

(** unicode_database.hpp:67-77 [binary_properties_t]: bit numbers. *)
Definition whitespace : N := 0.
Definition join_control : N := 1.
Definition alphabetic : N := 2.
Definition uppercase : N := 3.
Definition lowercase : N := 4.
Definition xid_start : N := 5.
Definition xid_continue : N := 6.

(** code_point.hpp:281-290 [code_point_has_properties<Props...>]. *)
Definition code_point_has_properties (props : list N) (cp : N) : option bool :=
  let mask := fold_right N.lor 0 (map (fun p => N.shiftl 1 p) props) in
  then_ (property_index cp) (fun idx =>
  then_ (array_at binary_properties idx) (fun p => Some (negb (N.land p mask =? 0)))).

(** code_point.hpp:76-119: the enumerators in their order, for [==]. *)
Definition category_code (k : category_t) : N :=
  match k with
  | Lu => 0 | Ll => 1 | Lt => 2 | Lm => 3 | Lo => 4 | Mn => 5 | Mc => 6 | Me => 7
  | Nd => 8 | Nl => 9 | No => 10 | Pc => 11 | Pd => 12 | Ps => 13 | Pe => 14 | Pi => 15
  | Pf => 16 | Po => 17 | Sm => 18 | Sc => 19 | Sk => 20 | So => 21 | Zs => 22 | Zl => 23
  | Zp => 24 | Cc => 25 | Cf => 26 | Cs => 27 | Co => 28 | Cn => 29
  end.
Definition category_eqb (a b : category_t) : bool := category_code a =? category_code b.

(** code_point.hpp:121-143 [_gc_group], 149-156: the groups of categories. *)
Inductive group := GLC | GL | GM | GN | GP | GS | GZ | GC.
Definition group_members (g : group) : list category_t :=
  match g with
  | GLC => [Lu; Ll; Lt]
  | GL => [Lu; Ll; Lt; Lm; Lo]
  | GM => [Mn; Mc; Me]
  | GN => [Nd; Nl; No]
  | GP => [Pc; Pd; Ps; Pe; Pi; Pf; Po]
  | GS => [Sm; Sc; Sk; So]
  | GZ => [Zs; Zl; Zp]
  | GC => [Cc; Cf; Cs; Co; Cn]
  end.
(** code_point.hpp:126-133 [operator==], 135-142 [operator!=]. *)
Definition group_eqb (g : group) (k : category_t) : bool := existsb (category_eqb k) (group_members g).
Definition group_neqb (g : group) (k : category_t) : bool := negb (group_eqb g k).

(** ** dsl/unicode.hpp: the classes *)
Inductive uclass :=
| Unctrl | Ucontrol | Ublank | Unewline | Uother_space | Uspace | Ulower | Uupper | Ualpha
| Udigit | Ualnum | Uword | Ugraph | Uprint | Uchar | Uxid_start | Uxid_start_underscore
| Uxid_continue.

(** [char_class_ascii] of each class. *)
Definition unicode_ascii (k : uclass) : ascii_class :=
  match k with
  | Unctrl => Cprint                  (* l.21-24 *)
  | Ucontrol => Ccontrol              (* l.45-48 *)
  | Ublank => Cblank                  (* l.80-83 *)
  | Unewline => Cnewline              (* l.106-109 *)
  | Uother_space => Cother_space      (* l.132-135 *)
  | Uspace => Cspace                  (* l.154-157 *)
  | Ulower => Clower                  (* l.180-183 *)
  | Uupper => Cupper                  (* l.205-208 *)
  | Ualpha => Calpha                  (* l.230-233 *)
  | Udigit => Cdigit                  (* l.256-259 *)
  | Ualnum => Calnum                  (* l.281-284 *)
  | Uword => Cword                    (* l.308-311 *)
  | Ugraph => Cgraph                  (* l.340-343 *)
  | Uprint => Cprint                  (* l.370-373 *)
  | Uchar => Cchar                    (* l.397-400 *)
  | Uxid_start => Calpha              (* l.425-428 *)
  | Uxid_start_underscore => Calphau  (* l.450-453 *)
  | Uxid_continue => Cword            (* l.476-479 *)
  end.

Definition orelse (a : option bool) (b : option bool) : option bool :=
  then_ a (fun x => if x then Some true else b).
Definition andalso (a : option bool) (b : option bool) : option bool :=
  then_ a (fun x => if x then b else Some false).
Definition gc_is (k : category_t) (cp : N) : option bool :=
  then_ (general_category cp) (fun c => Some (category_eqb c k)).

(** [char_class_match_cp] of each class; [&&] and [||] evaluate their right operand
    only if needed. *)
Definition blank_cp (cp : N) : option bool := gc_is Zs cp.                     (* l.85-89 *)
Definition space_cp (cp : N) : option bool := code_point_has_properties [whitespace] cp.  (* l.159-162 *)
Definition graph_cp (cp : N) : option bool :=                                  (* l.345-353 *)
  andalso (Some (negb (is_control cp))) (
  andalso (Some (negb (cp_is_surrogate cp))) (
  andalso (then_ (gc_is Cn cp) (fun b => Some (negb b)))
          (then_ (space_cp cp) (fun b => Some (negb b))))).
Definition unicode_cp (k : uclass) (cp : N) : option bool :=
  match k with
  | Unctrl => Some (negb (is_control cp))                                      (* l.26-29 *)
  | Ucontrol => Some (is_control cp)                                           (* l.50-53 *)
  | Ublank => blank_cp cp
  | Unewline => Some ((cp =? 0x85) || (cp =? 0x2029) || (cp =? 0x2028))        (* l.111-115 *)
  | Uother_space => Some false                                                 (* l.137 *)
  | Uspace => space_cp cp
  | Ulower => code_point_has_properties [lowercase] cp                         (* l.185-188 *)
  | Uupper => code_point_has_properties [uppercase] cp                         (* l.210-213 *)
  | Ualpha => code_point_has_properties [alphabetic] cp                        (* l.235-238 *)
  | Udigit => gc_is Nd cp                                                      (* l.261-264 *)
  | Ualnum => orelse (code_point_has_properties [alphabetic] cp) (gc_is Nd cp) (* l.286-290 *)
  | Uword =>                                                                   (* l.313-322 *)
    then_ (general_category cp) (fun cat =>
    if group_eqb GM cat || category_eqb cat Pc || category_eqb cat Nd then Some true
    else code_point_has_properties [alphabetic; join_control] cp)
  | Ugraph => graph_cp cp
  | Uprint =>                                                                  (* l.375-380 *)
    andalso (Some (negb (is_control cp))) (orelse (blank_cp cp) (graph_cp cp))
  | Uchar => then_ (general_category cp) (fun c => Some (negb (category_eqb c Cn)))  (* l.402-405 *)
  | Uxid_start | Uxid_start_underscore => code_point_has_properties [xid_start] cp   (* l.430-433, 455-459 *)
  | Uxid_continue => code_point_has_properties [xid_continue] cp               (* l.481-485 *)
  end.

Definition yes (o : option bool) : bool := match o with Some b => b | None => false end.

(** The class as used in a rule.  [other_space] has no code point test.  Where the test
    has undefined behaviour the class rejects; that this does not happen is theorem
    C72_defined. *)
Definition unicode (k : uclass) : cexpr :=
  EClass (class_table (unicode_ascii k))
    match k with Uother_space => None | _ => Some (fun cp => yes (unicode_cp k cp)) end.
(** dsl/unicode.hpp:63-70: unary [operator-] of [control] and of its complement. *)
Definition minus_control : cexpr := unicode Unctrl.
Definition minus_nctrl : cexpr := unicode Ucontrol.

(** ** dsl/code_point.hpp: predicates *)
(** dsl/code_point.hpp:96-112 [ascii], 113-129 [bmp], 130-146 [noncharacter]. *)
Definition cp_ascii : cexpr := cp_if is_ascii.
Definition cp_bmp : cexpr := cp_if is_bmp.
Definition cp_noncharacter : cexpr := cp_if is_noncharacter.
(** dsl/code_point.hpp:148-174 [general_category<Category>]. *)
Definition category_pred (k : category_t) (cp : N) : option bool :=
  match k with
  | Cc => Some (is_control cp)
  | Cs => Some (cp_is_surrogate cp)
  | Co => Some (is_private_use cp)
  | _ => gc_is k cp
  end.
Definition cp_category (k : category_t) : cexpr := cp_if (fun cp => yes (category_pred k cp)).
(** dsl/code_point.hpp:176-197 [general_category<GcGroup>]. *)
Definition group_pred (g : group) (cp : N) : option bool :=
  then_ (general_category cp) (fun c => Some (group_eqb g c)).
Definition cp_group (g : group) : cexpr := cp_if (fun cp => yes (group_pred g cp)).

(** [simple_case_fold] as a total function.  Where it has undefined behaviour the code
    point is returned; that this does not happen is theorem C73_fold. *)
Definition db_fold (cp : N) : N := match simple_case_fold_db cp with Some d => d | None => cp end.
