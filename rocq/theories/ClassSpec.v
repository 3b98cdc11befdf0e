(** Specification vocabulary for character classes. *)
From Verif Require Import Prelude CodecModel CodecSpec LitModel ClassModel.
Open Scope N_scope.

(** The set of code points an expression stands for. *)
Fixpoint denotes (e : cexpr) (c : N) : Prop :=
  match e with
  | EClass ascii cp =>
    if c <? 128 then ascii c = true
    else match cp with Some p => p c = true | None => False end
  | ECode x => c = x
  | EOr a b => denotes a c \/ denotes b c
  | ENot a => ~ denotes a c
  | EMinus a b => denotes a c /\ ~ denotes b c
  | EAnd a b => denotes a c /\ denotes b c
  end.

(** A class implemented by the user answers consistently for ASCII characters: its
    code point test accepts none that its ASCII set leaves out. *)
Fixpoint sane (e : cexpr) : Prop :=
  match e with
  | EClass ascii (Some p) => forall c, c < 128 -> p c = true -> ascii c = true
  | EClass _ None => True
  | ECode _ => True
  | ENot a => sane a
  | EOr a b | EMinus a b | EAnd a b => sane a /\ sane b
  end.

(** The character at the front of the input and the number of its units: the code
    point lexy reads in a Unicode encoding, the unit itself otherwise. *)
Definition reads (E : lenc) (rest : list N) (c : N) (n : nat) : Prop :=
  match E with
  | Enc e => parse_code_point e rest = CpResult c success n
  | Default => n = 1%nat /\ exists r, rest = c :: r /\ c < 0x100
  end.

(** The input starts with the well-formed encoding of [c], which has [n] units. *)
Definition encodes (E : lenc) (rest : list N) (c : N) (n : nat) : Prop :=
  (n <= length rest)%nat /\
  match E with
  | Enc Utf8 => utf8_wf c (firstn n rest)
  | Enc Utf16 => utf16_wf c (firstn n rest)
  | Enc Utf32 => utf32_wf c (firstn n rest)
  | Enc Ascii => c < 128 /\ firstn n rest = [c]
  | Default => c < 256 /\ firstn n rest = [c]
  end.

(** The documented contents of the ASCII classes, as lists of characters. *)
Definition from_to (a b : N) : list N := map (fun i => a + N.of_nat i) (seq 0 (N.to_nat (b + 1 - a))).
Definition letters_lower : list N :=
  [97; 98; 99; 100; 101; 102; 103; 104; 105; 106; 107; 108; 109; 110; 111; 112; 113; 114; 115;
   116; 117; 118; 119; 120; 121; 122].
Definition letters_upper : list N :=
  [65; 66; 67; 68; 69; 70; 71; 72; 73; 74; 75; 76; 77; 78; 79; 80; 81; 82; 83; 84; 85; 86; 87;
   88; 89; 90].
Definition decimal_digits : list N := [48; 49; 50; 51; 52; 53; 54; 55; 56; 57].
(** ! double-quote # $ % & ' ( ) * + , - . / : ; < = > ? @ [ backslash ] ^ _ ` { | } ~ *)
Definition punctuation : list N :=
  [33; 34; 35; 36; 37; 38; 39; 40; 41; 42; 43; 44; 45; 46; 47; 58; 59; 60; 61; 62; 63; 64;
   91; 92; 93; 94; 95; 96; 123; 124; 125; 126].
