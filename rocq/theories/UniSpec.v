(** Specification vocabulary for Unicode classes and case folding. *)
From Verif Require Import Prelude CodecModel CodecSpec LitModel LitSpec ClassModel UniTables UniModel.
Open Scope N_scope.

(** A code point. *)
Definition code_point (c : N) : Prop := c <= 0x10FFFF.

(** The category [general_category()] reports, and the properties of the Unicode
    character database it was generated from. *)
Definition has_category (c : N) (k : category_t) : Prop := general_category c = Some k.
Definition has (property : N) (c : N) : Prop := code_point_has_properties [property] c = Some true.
Definition in_group (c : N) (ks : list category_t) : Prop := exists k, In k ks /\ has_category c k.

(** The classes as documented (docs/content/reference/dsl/unicode.adoc). *)
Definition documented (k : uclass) (c : N) : Prop :=
  match k with
  | Unctrl => ~ has_category c Cc
  | Ucontrol => has_category c Cc
  | Ublank => has_category c Zs \/ c = 0x09
  | Unewline => In c [0x0D; 0x0A; 0x85; 0x2028; 0x2029]
  | Uother_space => In c [0x0C; 0x0B]
  | Uspace => has whitespace c
  | Ulower => has lowercase c
  | Uupper => has uppercase c
  | Ualpha => has alphabetic c
  | Udigit => has_category c Nd
  | Ualnum => has alphabetic c \/ has_category c Nd
  | Uword => has alphabetic c \/ has_category c Nd \/ in_group c [Mn; Mc; Me] \/
             has_category c Pc \/ has join_control c
  | Ugraph => ~ (has whitespace c \/ has_category c Cc \/ has_category c Cs \/ has_category c Cn)
  | Uprint => (~ (has whitespace c \/ has_category c Cc \/ has_category c Cs \/ has_category c Cn) \/
               has_category c Zs \/ c = 0x09) /\ ~ has_category c Cc
  | Uchar => ~ has_category c Cn
  | Uxid_start => has xid_start c
  | Uxid_start_underscore => has xid_start c \/ c = 0x5F
  | Uxid_continue => has xid_continue c
  end.

(** Ranges fixed by the Unicode standard. *)
Definition control_range (c : N) : Prop := c <= 0x1F \/ 0x7F <= c <= 0x9F.
Definition surrogate_range (c : N) : Prop := 0xD800 <= c <= 0xDFFF.
Definition private_use_range (c : N) : Prop :=
  0xE000 <= c <= 0xF8FF \/ 0xF0000 <= c <= 0xFFFFD \/ 0x100000 <= c <= 0x10FFFD.
Definition noncharacter_range (c : N) : Prop :=
  0xFDD0 <= c <= 0xFDEF \/ exists plane, c = plane * 0x10000 + 0xFFFE \/ c = plane * 0x10000 + 0xFFFF.

(** [simple_case_fold] as a total function, used where it is defined. *)
Definition folds (c d : N) : Prop := simple_case_fold_db c = Some d.
