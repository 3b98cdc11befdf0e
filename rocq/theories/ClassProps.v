(** Property theorems C22 and C66: character classes. *)
From Verif Require Import Prelude CodecModel CodecSpec SwarModel LitModel ClassModel ClassSpec
  ClassProofs.
Open Scope N_scope.

(** C22: the operators on character classes are the Boolean operations on what
    matches, for every nesting of expressions, every encoding and every input; the
    complement matches exactly where a character can be read. *)
Theorem C22_boolean_algebra : forall E a b rest,
  Forall (fun u => u < lbound E) rest -> sane a -> sane b ->
  (forall n, class_try E (build (EOr a b)) rest = Some n <->
     class_try E (build a) rest = Some n \/ class_try E (build b) rest = Some n) /\
  (forall n, class_try E (build (EAnd a b)) rest = Some n <->
     class_try E (build a) rest = Some n /\ class_try E (build b) rest = Some n) /\
  (forall n, class_try E (build (EMinus a b)) rest = Some n <->
     class_try E (build a) rest = Some n /\ class_try E (build b) rest = None) /\
  (forall n, class_try E (build (ENot a)) rest = Some n <->
     (exists c, reads E rest c n) /\ class_try E (build a) rest = None).
Proof. exact class_algebra. Qed.
Print Assumptions C22_boolean_algebra.

(** C22, on code points: an expression matches exactly the code points of the set it
    denotes and consumes their encoding. *)
Theorem C22_matches_denotation : forall E e rest n,
  E <> Enc Utf16 -> Forall (fun u => u < lbound E) rest -> sane e ->
  (class_try E (build e) rest = Some n <-> exists c, encodes E rest c n /\ denotes e c).
Proof. exact class_matches_text. Qed.
Print Assumptions C22_matches_denotation.

(** For UTF-16 the code point is the one lexy reads, see C03. *)
Theorem C22_matches_denotation_read : forall E e rest n,
  Forall (fun u => u < lbound E) rest -> sane e ->
  (class_try E (build e) rest = Some n <-> exists c, reads E rest c n /\ denotes e c).
Proof. exact class_matches. Qed.
Print Assumptions C22_matches_denotation_read.

Example C22_nonvacuous :
  let e := EMinus (EOr (named Calpha) (EAnd (cp_range 0x50 0x20AC) (ENot (ECode 0xE4)))) (one_of [0x62]) in
  sane e /\
  class_try (Enc Utf8) (build e) [0xE2; 0x82; 0xAC] = Some 3%nat /\
  class_try (Enc Utf8) (build e) [0xC3; 0xA4] = None /\
  class_try (Enc Utf8) (build e) [0x62] = None /\
  class_try (Enc Utf8) (build e) [0x63] = Some 1%nat /\
  class_try (Enc Utf8) (build (ENot e)) [0xC3; 0xA4; 0x21] = Some 2%nat /\
  class_try Default (build (ENot (ECode 0xE4))) [0xE5] = Some 1%nat.
Proof. split; [cbn; auto|]. vm_compute. auto 10. Qed.

(** C66: the predefined ASCII classes have exactly the documented members. *)
Theorem C66_named_classes : forall c,
  (class_table Ccontrol c = true <-> c <= 31 \/ c = 127) /\
  (class_table Cblank c = true <-> c = 32 \/ c = 9) /\
  (class_table Cnewline c = true <-> c = 10 \/ c = 13) /\
  (class_table Cother_space c = true <-> c = 11 \/ c = 12) /\
  (class_table Cspace c = true <-> In c [32; 9; 10; 13; 11; 12]) /\
  (class_table Clower c = true <-> In c letters_lower) /\
  (class_table Cupper c = true <-> In c letters_upper) /\
  (class_table Calpha c = true <-> In c letters_lower \/ In c letters_upper) /\
  (class_table Calphau c = true <-> In c letters_lower \/ In c letters_upper \/ c = 95) /\
  (class_table Cdigit c = true <-> In c decimal_digits) /\
  (class_table Calnum c = true <-> In c letters_lower \/ In c letters_upper \/ In c decimal_digits) /\
  (class_table Cword c = true <->
     In c letters_lower \/ In c letters_upper \/ In c decimal_digits \/ c = 95) /\
  (class_table Cpunct c = true <-> In c punctuation) /\
  (class_table Cgraph c = true <-> class_table Calnum c = true \/ class_table Cpunct c = true) /\
  (class_table Cprint c = true <-> class_table Cgraph c = true \/ c = 32) /\
  (class_table Cchar c = true <-> c <= 127) /\
  (class_table Cbinary c = true <-> In c [48; 49]) /\
  (class_table Coctal c = true <-> In c [48; 49; 50; 51; 52; 53; 54; 55]) /\
  (class_table Cdecimal c = true <-> In c decimal_digits) /\
  (class_table Chex_lower c = true <-> In c decimal_digits \/ In c [97; 98; 99; 100; 101; 102]) /\
  (class_table Chex_upper c = true <-> In c decimal_digits \/ In c [65; 66; 67; 68; 69; 70]) /\
  (class_table Chex c = true <->
     In c decimal_digits \/ In c [97; 98; 99; 100; 101; 102] \/ In c [65; 66; 67; 68; 69; 70]).
Proof. exact named_classes. Qed.
Print Assumptions C66_named_classes.

Example C66_nonvacuous : class_table Cpunct 0x60 = true /\ class_table Cword 0x60 = false.
Proof. split; reflexivity. Qed.
