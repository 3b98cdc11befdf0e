(** The tables of the Unicode database, transcribed number by number.
    Source: include/lexy/_detail/unicode_database.hpp, lines 8-12 [block_starts],
    13-52 [blocks], 65 [category], 80 [binary_properties], 82 [case_folding_offset].
    The two tables written as string literals are listed byte by byte (octal escapes,
    backslash and quote escapes resolved, adjacent literals joined) and cut into pieces of
    256 bytes; the literal's terminating zero is left out, so reading it would be an
    access out of bounds here. *)
From Verif Require Import Prelude.
Open Scope N_scope.

(** code_point.hpp:76-119 [general_category_t]. *)
Inductive category_t :=
| Lu | Ll | Lt | Lm | Lo | Mn | Mc | Me | Nd | Nl | No
| Pc | Pd | Ps | Pe | Pi | Pf | Po | Sm | Sc | Sk | So
| Zs | Zl | Zp | Cc | Cf | Cs | Co | Cn.

(** unicode_database.hpp:8-12 [block_starts]: 4352 bytes. *)
Definition block_starts_pieces : list (list N) := [
  [0;1;2;3;4;5;6;7;8;9;10;11;12;13;14;15;16;17;18;19;20;17;21;22;23;24;25;26;27;28;29;30;31;32;33;34;35;36;37;38;39;
   40;33;41;42;43;44;45;46;47;48;39;17;17;17;17;17;17;17;17;17;17;17;17;17;17;17;17;17;17;17;17;17;17;17;17;17;49;17;
   17;17;17;17;17;17;17;17;17;17;17;17;17;17;17;17;17;17;17;17;17;17;17;17;17;17;17;17;17;17;17;17;17;17;17;17;17;17;
   17;17;17;17;17;17;17;17;17;17;17;17;17;17;17;17;17;17;17;17;17;17;17;17;17;17;17;17;17;17;17;17;17;17;17;17;17;17;
   17;17;17;17;17;50;17;17;17;51;17;52;53;54;55;56;57;17;17;17;17;17;17;17;17;17;17;17;17;17;17;17;17;17;17;17;17;17;
   17;17;17;17;17;17;17;17;17;17;17;17;17;17;17;17;17;17;17;17;17;17;58;59;59;59;59;59;59;59;59;60;60;60;60;60;60;60;
   60;60;60;60;60;60;60;60;60;60;60;60;60;60;60;60;60;60;17;61;62;63;64;65;66];
  [67;68;69;70;71;72;17;73;74;75;76;77;78;79;80;81;82;83;84;85;86;87;88;89;90;91;92;93;94;95;96;97;17;17;17;98;99;100;
   101;101;101;101;101;101;101;101;101;102;17;17;17;17;103;101;101;101;101;101;101;101;101;101;101;101;101;101;101;
   101;17;17;104;101;101;101;101;101;101;101;101;101;101;101;101;101;101;101;101;101;101;101;101;101;101;101;101;101;
   101;101;101;101;101;101;101;101;17;17;105;106;101;101;107;108;17;17;17;17;17;17;17;17;17;17;17;17;17;17;17;17;17;
   17;17;17;17;17;17;109;17;17;17;17;110;111;101;101;101;101;101;101;101;101;101;101;101;101;101;101;101;101;101;101;
   101;101;101;101;101;101;101;101;101;101;101;101;101;101;101;112;17;113;114;101;101;101;101;101;101;101;101;101;115;
   101;101;101;101;101;101;101;101;101;101;101;101;101;101;101;101;101;101;116;117;118;119;120;121;122;123;124;39;39;
   125;101;101;101;101;126;127;128;129;101;130;101;101;131;132;133;101;101;134;135;136;101;137;138;139;140;39;39;141;
   142;143;39;144;145;101;101;101;101];
  [17;17;17;17;17;17;17;17;17;17;17;17;17;17;17;17;17;17;17;17;17;17;17;17;17;17;17;17;17;17;17;17;17;17;17;17;17;17;
   17;17;17;17;17;17;17;17;17;17;17;17;17;17;17;17;17;17;17;17;17;17;17;17;17;17;17;17;17;17;17;17;17;17;17;17;17;17;
   17;17;17;17;17;17;17;17;17;17;17;17;17;17;17;17;17;17;17;17;17;17;17;17;17;17;17;17;17;17;17;17;17;17;17;17;17;17;
   17;17;17;17;17;17;17;17;17;17;17;17;17;17;17;17;17;17;17;17;17;17;17;17;17;17;17;17;17;17;17;17;17;17;17;17;17;17;
   17;17;17;17;17;17;17;17;17;17;17;17;17;17;146;17;17;17;17;17;17;17;17;17;17;17;17;17;17;17;17;147;148;17;17;17;17;
   17;17;17;17;17;17;17;17;17;17;17;17;17;17;17;17;17;149;17;17;17;17;17;17;17;17;17;17;17;17;17;17;17;17;17;17;17;17;
   17;17;17;17;17;17;17;17;150;101;101;101;101;101;101;101;101;101;101;101;101;17;17;151;101;101;101;101;101];
  [17;17;17;17;17;17;17;17;17;17;17;17;17;17;17;17;17;17;17;152;17;17;17;17;17;17;17;17;17;17;17;17;17;17;17;153;101;
   101;101;101;101;101;101;101;101;101;101;101;101;101;101;101;101;101;101;101;101;101;101;101;101;101;101;101;101;
   101;101;101;101;101;101;101;101;101;101;101;101;101;101;101;101;101;101;101;101;101;101;101;101;101;101;101;101;
   101;101;101;101;101;101;101;101;101;101;101;101;101;101;101;101;101;101;101;101;101;101;101;101;101;101;101;101;
   101;101;101;101;101;101;101;101;101;101;101;101;101;101;101;101;101;101;101;101;101;101;101;101;101;101;101;101;
   101;101;101;101;101;101;101;101;101;101;101;101;101;101;101;101;101;101;101;101;101;101;101;101;101;101;101;101;
   101;101;101;101;101;101;101;101;101;101;101;101;101;101;101;101;101;101;101;101;101;101;101;101;101;101;101;101;
   101;101;101;101;101;101;101;101;101;101;101;101;101;101;101;101;101;101;101;101;101;101;101;101;101;101;101;101;
   101;101;101;101;101;101;101;101;101;101;101;101;101;101;101;101;101;101;101;101;101;101;101];
  [101;101;101;101;101;101;101;101;101;101;101;101;101;101;101;101;101;101;101;101;101;101;101;101;101;101;101;101;
   101;101;101;101;101;101;101;101;101;101;101;101;101;101;101;101;101;101;101;101;101;101;101;101;101;101;101;101;
   101;101;101;101;101;101;101;101;101;101;101;101;101;101;101;101;101;101;101;101;101;101;101;101;101;101;101;101;
   101;101;101;101;101;101;101;101;101;101;101;101;101;101;101;101;101;101;101;101;101;101;101;101;101;101;101;101;
   101;101;101;101;101;101;101;101;101;101;101;101;101;101;101;101;101;101;101;101;101;101;101;101;101;101;101;101;
   101;101;101;101;101;101;101;101;101;101;101;101;101;101;101;101;101;101;101;101;101;101;101;101;101;101;101;101;
   101;101;101;101;101;101;101;101;101;101;101;101;101;101;101;101;101;101;101;101;101;101;101;101;101;101;101;101;
   101;101;101;101;101;101;101;101;101;101;101;101;101;101;101;101;101;101;101;101;101;101;101;101;101;101;101;101;
   101;101;101;101;101;101;101;101;101;101;101;101;101;101;101;101;101;101;101;101;101;101;101;101;101;101;101;101;
   101;101;101;101];
  [101;101;101;101;101;101;101;101;101;101;101;101;101;101;101;101;101;101;101;101;101;101;101;101;101;101;101;101;
   101;101;101;101;101;101;101;101;101;101;101;101;101;101;101;101;101;101;101;101;101;101;101;101;101;101;101;101;
   101;101;101;101;101;101;101;101;101;101;101;101;101;101;101;101;101;101;101;101;101;101;101;101;101;101;101;101;
   101;101;101;101;101;101;101;101;101;101;101;101;101;101;101;101;101;101;101;101;101;101;101;101;101;101;101;101;
   101;101;101;101;101;101;101;101;101;101;101;101;101;101;101;101;101;101;101;101;101;101;101;101;101;101;101;101;
   101;101;101;101;101;101;101;101;101;101;101;101;101;101;101;101;101;101;101;101;101;101;101;101;101;101;101;101;
   101;101;101;101;101;101;101;101;101;101;101;101;101;101;101;101;101;101;101;101;101;101;101;101;101;101;101;101;
   101;101;101;101;101;101;101;101;101;101;101;101;101;101;101;101;101;101;101;101;101;101;101;101;101;101;101;101;
   101;101;101;101;101;101;101;101;101;101;101;101;101;101;101;101;101;101;101;101;101;101;101;101;101;101;101;101;
   101;101;101;101];
  [101;101;101;101;101;101;101;101;101;101;101;101;101;101;101;101;101;101;101;101;101;101;101;101;101;101;101;101;
   101;101;101;101;101;101;101;101;101;101;101;101;101;101;101;101;101;101;101;101;101;101;101;101;101;101;101;101;
   101;101;101;101;101;101;101;101;101;101;101;101;101;101;101;101;101;101;101;101;101;101;101;101;101;101;101;101;
   101;101;101;101;101;101;101;101;101;101;101;101;101;101;101;101;101;101;101;101;101;101;101;101;101;101;101;101;
   101;101;101;101;101;101;101;101;101;101;101;101;101;101;101;101;101;101;101;101;101;101;101;101;101;101;101;101;
   101;101;101;101;101;101;101;101;101;101;101;101;101;101;101;101;101;101;101;101;101;101;101;101;101;101;101;101;
   101;101;101;101;101;101;101;101;101;101;101;101;101;101;101;101;101;101;101;101;101;101;101;101;101;101;101;101;
   101;101;101;101;101;101;101;101;101;101;101;101;101;101;101;101;101;101;101;101;101;101;101;101;101;101;101;101;
   101;101;101;101;101;101;101;101;101;101;101;101;101;101;101;101;101;101;101;101;101;101;101;101;101;101;101;101;
   101;101;101;101];
  [101;101;101;101;101;101;101;101;101;101;101;101;101;101;101;101;101;101;101;101;101;101;101;101;101;101;101;101;
   101;101;101;101;101;101;101;101;101;101;101;101;101;101;101;101;101;101;101;101;101;101;101;101;101;101;101;101;
   101;101;101;101;101;101;101;101;101;101;101;101;101;101;101;101;101;101;101;101;101;101;101;101;101;101;101;101;
   101;101;101;101;101;101;101;101;101;101;101;101;101;101;101;101;101;101;101;101;101;101;101;101;101;101;101;101;
   101;101;101;101;101;101;101;101;101;101;101;101;101;101;101;101;101;101;101;101;101;101;101;101;101;101;101;101;
   101;101;101;101;101;101;101;101;101;101;101;101;101;101;101;101;101;101;101;101;101;101;101;101;101;101;101;101;
   101;101;101;101;101;101;101;101;101;101;101;101;101;101;101;101;101;101;101;101;101;101;101;101;101;101;101;101;
   101;101;101;101;101;101;101;101;101;101;101;101;101;101;101;101;101;101;101;101;101;101;101;101;101;101;101;101;
   101;101;101;101;101;101;101;101;101;101;101;101;101;101;101;101;101;101;101;101;101;101;101;101;101;101;101;101;
   101;101;101;101];
  [101;101;101;101;101;101;101;101;101;101;101;101;101;101;101;101;101;101;101;101;101;101;101;101;101;101;101;101;
   101;101;101;101;101;101;101;101;101;101;101;101;101;101;101;101;101;101;101;101;101;101;101;101;101;101;101;101;
   101;101;101;101;101;101;101;101;101;101;101;101;101;101;101;101;101;101;101;101;101;101;101;101;101;101;101;101;
   101;101;101;101;101;101;101;101;101;101;101;101;101;101;101;101;101;101;101;101;101;101;101;101;101;101;101;101;
   101;101;101;101;101;101;101;101;101;101;101;101;101;101;101;101;101;101;101;101;101;101;101;101;101;101;101;101;
   101;101;101;101;101;101;101;101;101;101;101;101;101;101;101;101;101;101;101;101;101;101;101;101;101;101;101;101;
   101;101;101;101;101;101;101;101;101;101;101;101;101;101;101;101;101;101;101;101;101;101;101;101;101;101;101;101;
   101;101;101;101;101;101;101;101;101;101;101;101;101;101;101;101;101;101;101;101;101;101;101;101;101;101;101;101;
   101;101;101;101;101;101;101;101;101;101;101;101;101;101;101;101;101;101;101;101;101;101;101;101;101;101;101;101;
   101;101;101;101];
  [101;101;101;101;101;101;101;101;101;101;101;101;101;101;101;101;101;101;101;101;101;101;101;101;101;101;101;101;
   101;101;101;101;101;101;101;101;101;101;101;101;101;101;101;101;101;101;101;101;101;101;101;101;101;101;101;101;
   101;101;101;101;101;101;101;101;101;101;101;101;101;101;101;101;101;101;101;101;101;101;101;101;101;101;101;101;
   101;101;101;101;101;101;101;101;101;101;101;101;101;101;101;101;101;101;101;101;101;101;101;101;101;101;101;101;
   101;101;101;101;101;101;101;101;101;101;101;101;101;101;101;101;101;101;101;101;101;101;101;101;101;101;101;101;
   101;101;101;101;101;101;101;101;101;101;101;101;101;101;101;101;101;101;101;101;101;101;101;101;101;101;101;101;
   101;101;101;101;101;101;101;101;101;101;101;101;101;101;101;101;101;101;101;101;101;101;101;101;101;101;101;101;
   101;101;101;101;101;101;101;101;101;101;101;101;101;101;101;101;101;101;101;101;101;101;101;101;101;101;101;101;
   101;101;101;101;101;101;101;101;101;101;101;101;101;101;101;101;101;101;101;101;101;101;101;101;101;101;101;101;
   101;101;101;101];
  [101;101;101;101;101;101;101;101;101;101;101;101;101;101;101;101;101;101;101;101;101;101;101;101;101;101;101;101;
   101;101;101;101;101;101;101;101;101;101;101;101;101;101;101;101;101;101;101;101;101;101;101;101;101;101;101;101;
   101;101;101;101;101;101;101;101;101;101;101;101;101;101;101;101;101;101;101;101;101;101;101;101;101;101;101;101;
   101;101;101;101;101;101;101;101;101;101;101;101;101;101;101;101;101;101;101;101;101;101;101;101;101;101;101;101;
   101;101;101;101;101;101;101;101;101;101;101;101;101;101;101;101;101;101;101;101;101;101;101;101;101;101;101;101;
   101;101;101;101;101;101;101;101;101;101;101;101;101;101;101;101;101;101;101;101;101;101;101;101;101;101;101;101;
   101;101;101;101;101;101;101;101;101;101;101;101;101;101;101;101;101;101;101;101;101;101;101;101;101;101;101;101;
   101;101;101;101;101;101;101;101;101;101;101;101;101;101;101;101;101;101;101;101;101;101;101;101;101;101;101;101;
   101;101;101;101;101;101;101;101;101;101;101;101;101;101;101;101;101;101;101;101;101;101;101;101;101;101;101;101;
   101;101;101;101];
  [101;101;101;101;101;101;101;101;101;101;101;101;101;101;101;101;101;101;101;101;101;101;101;101;101;101;101;101;
   101;101;101;101;101;101;101;101;101;101;101;101;101;101;101;101;101;101;101;101;101;101;101;101;101;101;101;101;
   101;101;101;101;101;101;101;101;101;101;101;101;101;101;101;101;101;101;101;101;101;101;101;101;101;101;101;101;
   101;101;101;101;101;101;101;101;101;101;101;101;101;101;101;101;101;101;101;101;101;101;101;101;101;101;101;101;
   101;101;101;101;101;101;101;101;101;101;101;101;101;101;101;101;101;101;101;101;101;101;101;101;101;101;101;101;
   101;101;101;101;101;101;101;101;101;101;101;101;101;101;101;101;101;101;101;101;101;101;101;101;101;101;101;101;
   101;101;101;101;101;101;101;101;101;101;101;101;101;101;101;101;101;101;101;101;101;101;101;101;101;101;101;101;
   101;101;101;101;101;101;101;101;101;101;101;101;101;101;101;101;101;101;101;101;101;101;101;101;101;101;101;101;
   101;101;101;101;101;101;101;101;101;101;101;101;101;101;101;101;101;101;101;101;101;101;101;101;101;101;101;101;
   101;101;101;101];
  [101;101;101;101;101;101;101;101;101;101;101;101;101;101;101;101;101;101;101;101;101;101;101;101;101;101;101;101;
   101;101;101;101;101;101;101;101;101;101;101;101;101;101;101;101;101;101;101;101;101;101;101;101;101;101;101;101;
   101;101;101;101;101;101;101;101;101;101;101;101;101;101;101;101;101;101;101;101;101;101;101;101;101;101;101;101;
   101;101;101;101;101;101;101;101;101;101;101;101;101;101;101;101;101;101;101;101;101;101;101;101;101;101;101;101;
   101;101;101;101;101;101;101;101;101;101;101;101;101;101;101;101;101;101;101;101;101;101;101;101;101;101;101;101;
   101;101;101;101;101;101;101;101;101;101;101;101;101;101;101;101;101;101;101;101;101;101;101;101;101;101;101;101;
   101;101;101;101;101;101;101;101;101;101;101;101;101;101;101;101;101;101;101;101;101;101;101;101;101;101;101;101;
   101;101;101;101;101;101;101;101;101;101;101;101;101;101;101;101;101;101;101;101;101;101;101;101;101;101;101;101;
   101;101;101;101;101;101;101;101;101;101;101;101;101;101;101;101;101;101;101;101;101;101;101;101;101;101;101;101;
   101;101;101;101];
  [101;101;101;101;101;101;101;101;101;101;101;101;101;101;101;101;101;101;101;101;101;101;101;101;101;101;101;101;
   101;101;101;101;101;101;101;101;101;101;101;101;101;101;101;101;101;101;101;101;101;101;101;101;101;101;101;101;
   101;101;101;101;101;101;101;101;101;101;101;101;101;101;101;101;101;101;101;101;101;101;101;101;101;101;101;101;
   101;101;101;101;101;101;101;101;101;101;101;101;101;101;101;101;101;101;101;101;101;101;101;101;101;101;101;101;
   101;101;101;101;101;101;101;101;101;101;101;101;101;101;101;101;101;101;101;101;101;101;101;101;101;101;101;101;
   101;101;101;101;101;101;101;101;101;101;101;101;101;101;101;101;101;101;101;101;101;101;101;101;101;101;101;101;
   101;101;101;101;101;101;101;101;101;101;101;101;101;101;101;101;101;101;101;101;101;101;101;101;101;101;101;101;
   101;101;101;101;101;101;101;101;101;101;101;101;101;101;101;101;101;101;101;101;101;101;101;101;101;101;101;101;
   101;101;101;101;101;101;101;101;101;101;101;101;101;101;101;101;101;101;101;101;101;101;101;101;101;101;101;101;
   101;101;101;101];
  [154;155;101;101;101;101;101;101;101;101;101;101;101;101;101;101;101;101;101;101;101;101;101;101;101;101;101;101;
   101;101;101;101;101;101;101;101;101;101;101;101;101;101;101;101;101;101;101;101;101;101;101;101;101;101;101;101;
   101;101;101;101;101;101;101;101;101;101;101;101;101;101;101;101;101;101;101;101;101;101;101;101;101;101;101;101;
   101;101;101;101;101;101;101;101;101;101;101;101;101;101;101;101;101;101;101;101;101;101;101;101;101;101;101;101;
   101;101;101;101;101;101;101;101;101;101;101;101;101;101;101;101;101;101;101;101;101;101;101;101;101;101;101;101;
   101;101;101;101;101;101;101;101;101;101;101;101;101;101;101;101;101;101;101;101;101;101;101;101;101;101;101;101;
   101;101;101;101;101;101;101;101;101;101;101;101;101;101;101;101;101;101;101;101;101;101;101;101;101;101;101;101;
   101;101;101;101;101;101;101;101;101;101;101;101;101;101;101;101;101;101;101;101;101;101;101;101;101;101;101;101;
   101;101;101;101;101;101;101;101;101;101;101;101;101;101;101;101;101;101;101;101;101;101;101;101;101;101;101;101;
   101;101;101;101];
  [60;60;60;60;60;60;60;60;60;60;60;60;60;60;60;60;60;60;60;60;60;60;60;60;60;60;60;60;60;60;60;60;60;60;60;60;60;60;
   60;60;60;60;60;60;60;60;60;60;60;60;60;60;60;60;60;60;60;60;60;60;60;60;60;60;60;60;60;60;60;60;60;60;60;60;60;60;
   60;60;60;60;60;60;60;60;60;60;60;60;60;60;60;60;60;60;60;60;60;60;60;60;60;60;60;60;60;60;60;60;60;60;60;60;60;60;
   60;60;60;60;60;60;60;60;60;60;60;60;60;60;60;60;60;60;60;60;60;60;60;60;60;60;60;60;60;60;60;60;60;60;60;60;60;60;
   60;60;60;60;60;60;60;60;60;60;60;60;60;60;60;60;60;60;60;60;60;60;60;60;60;60;60;60;60;60;60;60;60;60;60;60;60;60;
   60;60;60;60;60;60;60;60;60;60;60;60;60;60;60;60;60;60;60;60;60;60;60;60;60;60;60;60;60;60;60;60;60;60;60;60;60;60;
   60;60;60;60;60;60;60;60;60;60;60;60;60;60;60;60;60;60;60;60;60;60;60;60;60;60;60;156];
  [60;60;60;60;60;60;60;60;60;60;60;60;60;60;60;60;60;60;60;60;60;60;60;60;60;60;60;60;60;60;60;60;60;60;60;60;60;60;
   60;60;60;60;60;60;60;60;60;60;60;60;60;60;60;60;60;60;60;60;60;60;60;60;60;60;60;60;60;60;60;60;60;60;60;60;60;60;
   60;60;60;60;60;60;60;60;60;60;60;60;60;60;60;60;60;60;60;60;60;60;60;60;60;60;60;60;60;60;60;60;60;60;60;60;60;60;
   60;60;60;60;60;60;60;60;60;60;60;60;60;60;60;60;60;60;60;60;60;60;60;60;60;60;60;60;60;60;60;60;60;60;60;60;60;60;
   60;60;60;60;60;60;60;60;60;60;60;60;60;60;60;60;60;60;60;60;60;60;60;60;60;60;60;60;60;60;60;60;60;60;60;60;60;60;
   60;60;60;60;60;60;60;60;60;60;60;60;60;60;60;60;60;60;60;60;60;60;60;60;60;60;60;60;60;60;60;60;60;60;60;60;60;60;
   60;60;60;60;60;60;60;60;60;60;60;60;60;60;60;60;60;60;60;60;60;60;60;60;60;60;60;156]].

(** unicode_database.hpp:13-52 [blocks]: 40192 bytes. *)
Definition blocks_pieces : list (list N) := [
  [0;0;0;0;0;0;0;0;0;1;1;1;1;1;0;0;0;0;0;0;0;0;0;0;0;0;0;0;0;0;0;0;2;3;3;3;4;3;3;3;5;6;3;7;3;8;3;3;9;9;9;9;9;9;9;9;9;
   9;3;3;7;7;7;3;3;10;10;10;10;10;10;10;10;10;10;10;10;10;10;10;10;10;10;10;10;10;10;10;10;10;10;5;3;6;11;12;11;13;13;
   13;13;13;13;13;13;13;13;13;13;13;13;13;13;13;13;13;13;13;13;13;13;13;13;5;7;6;7;0;0;0;0;0;0;1;0;0;0;0;0;0;0;0;0;0;
   0;0;0;0;0;0;0;0;0;0;0;0;0;0;0;0;2;3;4;4;4;4;14;3;11;14;15;16;7;17;14;11;14;7;18;18;11;19;3;20;11;18;15;21;18;18;18;
   3;10;10;10;10;10;10;10;10;10;10;10;10;10;10;10;10;10;10;10;10;10;10;10;7;10;10;10;10;10;10;10;13;13;13;13;13;13;13;
   13;13;13;13;13;13;13;13;13;13;13;13;13;13;13;13;13;7;13;13;13;13;13;13;13;13];
  [22;13;22;13;22;13;22;13;22;13;22;13;22;13;22;13;22;13;22;13;22;13;22;13;22;13;22;13;22;13;22;13;22;13;22;13;22;13;
   22;13;22;13;22;13;22;13;22;13;23;13;22;13;22;13;22;13;13;22;13;22;13;22;13;22;13;22;13;22;13;22;13;22;13;13;22;13;
   22;13;22;13;22;13;22;13;22;13;22;13;22;13;22;13;22;13;22;13;22;13;22;13;22;13;22;13;22;13;22;13;22;13;22;13;22;13;
   22;13;22;13;22;13;24;22;13;22;13;22;13;25;13;26;22;13;22;13;27;22;13;28;28;22;13;13;29;30;31;22;13;28;32;13;33;34;
   22;13;13;13;33;35;13;36;22;13;22;13;22;13;37;22;13;37;13;13;22;13;37;22;13;38;38;22;13;22;13;39;22;13;13;40;22;13;
   13;13;40;40;40;40;41;42;13;41;42;13;41;42;13;22;13;22;13;22;13;22;13;22;13;22;13;22;13;22;13;13;22;13;22;13;22;13;
   22;13;22;13;22;13;22;13;22;13;22;13;13;41;42;13;22;13;43;44;22;13;22;13;22;13;22;13];
  [22;13;22;13;22;13;22;13;22;13;22;13;22;13;22;13;22;13;22;13;22;13;22;13;22;13;22;13;22;13;22;13;45;13;22;13;22;13;
   22;13;22;13;22;13;22;13;22;13;22;13;22;13;13;13;13;13;13;13;46;22;13;47;48;13;13;22;13;49;50;51;22;13;22;13;22;13;
   22;13;22;13;13;13;13;13;13;13;13;13;13;13;13;13;13;13;13;13;13;13;13;13;13;13;13;13;13;13;13;13;13;13;13;13;13;13;
   13;13;13;13;13;13;13;13;13;13;13;13;13;13;13;13;13;13;13;13;13;13;13;13;13;13;13;13;13;13;13;13;13;13;40;13;13;13;
   13;13;13;13;13;13;13;13;13;13;13;13;13;13;13;13;13;13;13;13;13;13;13;13;52;52;52;52;52;52;52;52;52;53;53;53;53;53;
   53;53;52;52;11;11;11;11;53;53;53;53;53;53;53;53;53;53;53;53;11;11;11;11;11;11;11;11;11;11;11;11;11;11;52;52;52;52;
   52;11;11;11;11;11;11;11;53;11;53;11;11;11;11;11;11;11;11;11;11;11;11;11;11;11;11;11];
  [54;54;54;54;54;54;54;54;54;54;54;54;54;54;54;54;54;54;54;54;54;54;54;54;54;54;54;54;54;54;54;54;54;54;54;54;54;54;
   54;54;54;54;54;54;54;54;54;54;54;54;54;54;54;54;54;54;54;54;54;54;54;54;54;54;54;54;54;54;54;55;54;54;54;54;54;54;
   54;54;54;54;54;54;54;54;54;54;54;54;54;54;54;54;54;54;54;54;54;54;54;54;54;54;54;54;54;54;54;54;54;54;54;54;22;13;
   22;13;53;11;22;13;56;56;57;13;13;13;3;58;56;56;56;56;11;11;59;20;60;60;60;56;61;56;62;62;13;10;10;10;10;10;10;10;
   10;10;10;10;10;10;10;10;10;10;56;10;10;10;10;10;10;10;10;10;13;13;13;13;13;13;13;13;13;13;13;13;13;13;13;13;13;13;
   13;13;13;13;63;13;13;13;13;13;13;13;13;13;13;13;13;64;65;66;23;23;23;67;68;13;22;13;22;13;22;13;22;13;22;13;22;13;
   22;13;22;13;22;13;22;13;22;13;22;13;69;70;13;13;71;72;7;22;13;73;22;13;13;45;45;45];
  [74;74;74;74;74;74;74;74;74;74;74;74;74;74;74;74;10;10;10;10;10;10;10;10;10;10;10;10;10;10;10;10;10;10;10;10;10;10;
   10;10;10;10;10;10;10;10;10;10;13;13;13;13;13;13;13;13;13;13;13;13;13;13;13;13;13;13;13;13;13;13;13;13;13;13;13;13;
   13;13;13;13;13;13;13;13;13;13;13;13;13;13;13;13;13;13;13;13;22;13;22;13;22;13;22;13;22;13;22;13;22;13;22;13;22;13;
   22;13;22;13;22;13;22;13;22;13;22;13;22;13;22;13;14;54;54;54;54;54;75;75;22;13;22;13;22;13;22;13;22;13;22;13;22;13;
   22;13;22;13;22;13;22;13;22;13;22;13;22;13;22;13;22;13;22;13;22;13;22;13;22;13;22;13;22;13;22;13;22;13;22;13;22;13;
   22;13;76;22;13;22;13;22;13;22;13;22;13;22;13;22;13;13;22;13;22;13;22;13;22;13;22;13;22;13;22;13;22;13;22;13;22;13;
   22;13;22;13;22;13;22;13;22;13;22;13;22;13;22;13;22;13;22;13;22;13;22;13;22;13;22;13];
  [22;13;22;13;22;13;22;13;22;13;22;13;22;13;22;13;22;13;22;13;22;13;22;13;22;13;22;13;22;13;22;13;22;13;22;13;22;13;
   22;13;22;13;22;13;22;13;22;13;56;77;77;77;77;77;77;77;77;77;77;77;77;77;77;77;77;77;77;77;77;77;77;77;77;77;77;77;
   77;77;77;77;77;77;77;77;77;77;77;56;56;53;3;3;3;3;3;3;13;13;13;13;13;13;13;13;13;13;13;13;13;13;13;13;13;13;13;13;
   13;13;13;13;13;13;13;13;13;13;13;13;13;13;13;13;13;13;13;13;13;3;8;56;56;14;14;4;56;54;54;54;54;54;54;54;54;54;54;
   54;54;54;54;54;54;54;54;54;54;54;54;54;54;54;54;54;54;54;54;54;78;78;78;78;78;78;78;78;78;78;78;78;78;78;8;78;3;78;
   78;3;78;78;3;78;56;56;56;56;56;56;56;56;40;40;40;40;40;40;40;40;40;40;40;40;40;40;40;40;40;40;40;40;40;40;40;40;40;
   40;40;56;56;56;56;40;40;40;40;3;3;56;56;56;56;56;56;56;56;56;56;56];
  [17;17;17;17;17;17;7;7;7;3;3;4;3;3;14;14;78;78;78;78;78;78;78;78;78;78;78;3;17;3;3;3;40;40;40;40;40;40;40;40;40;40;
   40;40;40;40;40;40;40;40;40;40;40;40;40;40;40;40;40;40;40;40;40;40;53;40;40;40;40;40;40;40;40;40;40;78;78;78;78;78;
   78;78;78;78;78;78;78;78;54;78;78;78;78;78;78;78;9;9;9;9;9;9;9;9;9;9;3;3;3;3;40;40;78;40;40;40;40;40;40;40;40;40;40;
   40;40;40;40;40;40;40;40;40;40;40;40;40;40;40;40;40;40;40;40;40;40;40;40;40;40;40;40;40;40;40;40;40;40;40;40;40;40;
   40;40;40;40;40;40;40;40;40;40;40;40;40;40;40;40;40;40;40;40;40;40;40;40;40;40;40;40;40;40;40;40;40;40;40;40;40;40;
   40;40;40;40;40;40;40;40;40;40;40;40;40;3;40;78;78;78;78;78;78;78;17;14;54;54;78;78;78;78;53;53;78;78;14;54;54;54;
   78;40;40;9;9;9;9;9;9;9;9;9;9;40;40;40;14;14;40];
  [3;3;3;3;3;3;3;3;3;3;3;3;3;3;56;17;40;78;40;40;40;40;40;40;40;40;40;40;40;40;40;40;40;40;40;40;40;40;40;40;40;40;40;
   40;40;40;40;40;78;78;78;78;78;78;78;78;78;78;78;78;78;78;78;78;54;54;54;54;54;54;54;54;54;54;54;56;56;40;40;40;40;
   40;40;40;40;40;40;40;40;40;40;40;40;40;40;40;40;40;40;40;40;40;40;40;40;40;40;40;40;40;40;40;40;40;40;40;40;40;40;
   40;40;40;40;40;40;40;40;40;40;40;40;40;40;40;40;40;40;40;40;40;40;40;40;40;40;40;40;40;40;40;40;40;40;40;40;40;40;
   40;40;40;40;40;40;40;40;40;78;78;78;78;78;78;78;78;78;78;78;40;56;56;56;56;56;56;56;56;56;56;56;56;56;56;9;9;9;9;9;
   9;9;9;9;9;40;40;40;40;40;40;40;40;40;40;40;40;40;40;40;40;40;40;40;40;40;40;40;40;40;40;40;40;40;40;40;40;40;54;54;
   54;54;54;54;54;54;54;53;53;14;3;3;3;53;56;56;54;4;4];
  [40;40;40;40;40;40;40;40;40;40;40;40;40;40;40;40;40;40;40;40;40;40;78;78;54;54;53;78;78;78;78;78;78;78;78;78;53;78;
   78;78;53;78;78;78;78;54;56;56;3;3;3;3;3;3;3;3;3;3;3;3;3;3;3;56;40;40;40;40;40;40;40;40;40;40;40;40;40;40;40;40;40;
   40;40;40;40;40;40;40;40;54;54;54;56;56;3;56;40;40;40;40;40;40;40;40;40;40;40;56;56;56;56;56;40;40;40;40;40;40;40;
   40;40;40;40;40;40;40;40;40;40;40;40;40;40;40;40;40;11;40;40;40;40;40;40;56;17;17;56;56;56;56;56;56;54;54;54;54;54;
   54;54;54;40;40;40;40;40;40;40;40;40;40;40;40;40;40;40;40;40;40;40;40;40;40;40;40;40;40;40;40;40;40;40;40;40;40;40;
   40;40;40;40;40;40;53;54;54;54;54;54;54;54;54;54;54;78;78;78;78;78;78;78;78;78;78;78;78;54;54;17;78;78;78;78;78;78;
   78;54;54;54;54;54;54;78;78;78;78;78;78;78;78;78;78;78;78;78;78;78;78];
  [78;78;78;79;40;40;40;40;40;40;40;40;40;40;40;40;40;40;40;40;40;40;40;40;40;40;40;40;40;40;40;40;40;40;40;40;40;40;
   40;40;40;40;40;40;40;40;40;40;40;40;40;40;40;40;40;40;40;40;78;79;54;40;79;79;79;78;78;78;78;78;78;78;78;79;79;79;
   79;54;79;79;40;54;54;54;54;78;78;78;40;40;40;40;40;40;40;40;40;40;78;78;3;3;9;9;9;9;9;9;9;9;9;9;3;53;40;40;40;40;
   40;40;40;40;40;40;40;40;40;40;40;78;79;79;56;40;40;40;40;40;40;40;40;56;56;40;40;56;56;40;40;40;40;40;40;40;40;40;
   40;40;40;40;40;40;40;40;40;40;40;40;40;56;40;40;40;40;40;40;40;56;40;56;56;56;40;40;40;40;56;56;54;40;79;79;79;78;
   78;78;78;56;56;79;79;56;56;79;79;54;40;56;56;56;56;56;56;56;56;79;56;56;56;56;40;40;56;40;40;40;78;78;56;56;9;9;9;
   9;9;9;9;9;9;9;40;40;4;4;18;18;18;18;18;18;14;4;40;3;54;56];
  [56;78;78;79;56;40;40;40;40;40;40;56;56;56;56;40;40;56;56;40;40;40;40;40;40;40;40;40;40;40;40;40;40;40;40;40;40;40;
   40;40;40;56;40;40;40;40;40;40;40;56;40;40;56;40;40;56;40;40;56;56;54;56;79;79;79;78;78;56;56;56;56;78;78;56;56;78;
   78;54;56;56;56;78;56;56;56;56;56;56;56;40;40;40;40;56;40;56;56;56;56;56;56;56;9;9;9;9;9;9;9;9;9;9;78;78;40;40;40;
   78;3;56;56;56;56;56;56;56;56;56;56;78;78;79;56;40;40;40;40;40;40;40;40;40;56;40;40;40;56;40;40;40;40;40;40;40;40;
   40;40;40;40;40;40;40;40;40;40;40;40;40;40;56;40;40;40;40;40;40;40;56;40;40;56;40;40;40;40;40;56;56;54;40;79;79;79;
   78;78;78;78;78;56;78;78;79;56;79;79;54;56;56;40;56;56;56;56;56;56;56;56;56;56;56;56;56;56;56;40;40;78;78;56;56;9;9;
   9;9;9;9;9;9;9;9;3;4;56;56;56;56;56;56;56;40;78;78;78;54;54;54];
  [56;78;79;79;56;40;40;40;40;40;40;40;40;56;56;40;40;56;56;40;40;40;40;40;40;40;40;40;40;40;40;40;40;40;40;40;40;40;
   40;40;40;56;40;40;40;40;40;40;40;56;40;40;56;40;40;40;40;40;56;56;54;40;79;78;79;78;78;78;78;56;56;79;79;56;56;79;
   79;54;56;56;56;56;56;56;56;54;78;79;56;56;56;56;40;40;56;40;40;40;78;78;56;56;9;9;9;9;9;9;9;9;9;9;14;40;18;18;18;
   18;18;18;56;56;56;56;56;56;56;56;56;56;78;40;56;40;40;40;40;40;40;56;56;56;40;40;40;56;40;40;40;40;56;56;56;40;40;
   56;40;56;40;40;56;56;56;40;40;56;56;56;40;40;40;56;56;56;40;40;40;40;40;40;40;40;40;40;40;40;56;56;56;56;79;79;78;
   79;79;56;56;56;79;79;79;56;79;79;79;54;56;56;40;56;56;56;56;56;56;79;56;56;56;56;56;56;56;56;56;56;56;56;56;56;9;9;
   9;9;9;9;9;9;9;9;18;18;18;14;14;14;14;14;14;4;14;56;56;56;56;56];
  [78;79;79;79;78;40;40;40;40;40;40;40;40;56;40;40;40;56;40;40;40;40;40;40;40;40;40;40;40;40;40;40;40;40;40;40;40;40;
   40;40;40;56;40;40;40;40;40;40;40;40;40;40;40;40;40;40;40;40;56;56;54;40;78;78;78;79;79;79;79;56;78;78;78;56;78;78;
   78;54;56;56;56;56;56;56;56;78;78;56;40;40;40;56;56;40;56;56;40;40;78;78;56;56;9;9;9;9;9;9;9;9;9;9;56;56;56;56;56;
   56;56;3;18;18;18;18;18;18;18;14;40;78;79;79;3;40;40;40;40;40;40;40;40;56;40;40;40;56;40;40;40;40;40;40;40;40;40;40;
   40;40;40;40;40;40;40;40;40;40;40;40;40;56;40;40;40;40;40;40;40;40;40;40;56;40;40;40;40;40;56;56;54;40;79;78;79;79;
   79;79;79;56;78;79;79;56;79;79;78;54;56;56;56;56;56;56;56;79;79;56;56;56;56;56;56;40;40;56;40;40;78;78;56;56;9;9;9;
   9;9;9;9;9;9;9;56;40;40;79;56;56;56;56;56;56;56;56;56;56;56;56];
  [78;78;79;79;40;40;40;40;40;40;40;40;40;56;40;40;40;56;40;40;40;40;40;40;40;40;40;40;40;40;40;40;40;40;40;40;40;40;
   40;40;40;40;40;40;40;40;40;40;40;40;40;40;40;40;40;40;40;40;40;54;54;40;79;79;79;78;78;78;78;56;79;79;79;56;79;79;
   79;54;40;14;56;56;56;56;40;40;40;79;18;18;18;18;18;18;18;40;40;40;78;78;56;56;9;9;9;9;9;9;9;9;9;9;18;18;18;18;18;
   18;18;18;18;14;40;40;40;40;40;40;56;78;79;79;56;40;40;40;40;40;40;40;40;40;40;40;40;40;40;40;40;40;40;56;56;56;40;
   40;40;40;40;40;40;40;40;40;40;40;40;40;40;40;40;40;40;40;40;40;40;40;56;40;40;40;40;40;40;40;40;40;56;40;56;56;40;
   40;40;40;40;40;40;56;56;56;54;56;56;56;56;79;79;79;78;78;78;56;78;56;79;79;79;79;79;79;79;79;56;56;56;56;56;56;9;9;
   9;9;9;9;9;9;9;9;56;56;79;79;3;56;56;56;56;56;56;56;56;56;56;56];
  [56;40;40;40;40;40;40;40;40;40;40;40;40;40;40;40;40;40;40;40;40;40;40;40;40;40;40;40;40;40;40;40;40;40;40;40;40;40;
   40;40;40;40;40;40;40;40;40;40;40;78;40;80;78;78;78;78;78;78;78;56;56;56;56;4;40;40;40;40;40;40;53;54;54;54;54;54;
   54;78;54;3;9;9;9;9;9;9;9;9;9;9;3;3;56;56;56;56;56;56;56;56;56;56;56;56;56;56;56;56;56;56;56;56;56;56;56;56;56;56;
   56;56;56;56;56;56;56;56;56;56;56;40;40;56;40;56;40;40;40;40;40;56;40;40;40;40;40;40;40;40;40;40;40;40;40;40;40;40;
   40;40;40;40;40;40;40;40;56;40;56;40;40;40;40;40;40;40;40;40;40;78;40;80;78;78;78;78;78;78;54;78;78;40;56;56;40;40;
   40;40;40;56;53;56;54;54;54;54;54;78;54;56;9;9;9;9;9;9;9;9;9;9;56;56;40;40;40;40;56;56;56;56;56;56;56;56;56;56;56;
   56;56;56;56;56;56;56;56;56;56;56;56;56;56;56;56;56;56;56;56;56];
  [40;14;14;14;3;3;3;3;3;3;3;3;3;3;3;3;3;3;3;14;3;14;14;14;54;54;14;14;14;14;14;14;9;9;9;9;9;9;9;9;9;9;18;18;18;18;18;
   18;18;18;18;18;14;54;14;54;14;54;5;6;5;6;81;81;40;40;40;40;40;40;40;40;56;40;40;40;40;40;40;40;40;40;40;40;40;40;
   40;40;40;40;40;40;40;40;40;40;40;40;40;40;40;40;40;40;40;40;40;40;40;56;56;56;56;78;78;78;78;78;78;78;78;78;78;78;
   78;78;78;79;78;78;78;78;54;3;54;54;40;40;40;40;40;78;78;78;78;78;78;78;78;78;78;78;56;78;78;78;78;78;78;78;78;78;
   78;78;78;78;78;78;78;78;78;78;78;78;78;78;78;78;78;78;78;78;78;78;78;78;78;78;78;56;14;14;14;14;14;14;14;14;54;14;
   14;14;14;14;14;56;14;14;3;3;3;3;3;14;14;14;14;3;3;56;56;56;56;56;56;56;56;56;56;56;56;56;56;56;56;56;56;56;56;56;
   56;56;56;56;56;56;56;56;56;56;56;56;56;56;56;56];
  [40;40;40;40;40;40;40;40;40;40;40;40;40;40;40;40;40;40;40;40;40;40;40;40;40;40;40;40;40;40;40;40;40;40;40;40;40;40;
   40;40;40;40;40;79;79;78;78;78;78;79;78;78;78;78;78;54;79;54;54;79;79;78;78;40;9;9;9;9;9;9;9;9;9;9;3;3;3;3;3;3;40;
   40;40;40;40;40;79;79;78;78;40;40;40;40;78;78;78;40;79;79;79;40;40;79;79;79;79;79;79;79;40;40;40;78;78;78;78;40;40;
   40;40;40;40;40;40;40;40;40;40;40;78;79;79;78;78;79;79;79;79;79;79;78;40;79;9;9;9;9;9;9;9;9;9;9;79;79;79;78;14;14;
   82;82;82;82;82;82;82;82;82;82;82;82;82;82;82;82;82;82;82;82;82;82;82;82;82;82;82;82;82;82;82;82;82;82;82;82;82;82;
   56;82;56;56;56;56;56;82;56;56;13;13;13;13;13;13;13;13;13;13;13;13;13;13;13;13;13;13;13;13;13;13;13;13;13;13;13;13;
   13;13;13;13;13;13;13;13;13;13;13;13;13;13;13;3;52;13;13;13];
  [40;40;40;40;40;40;40;40;40;40;40;40;40;40;40;40;40;40;40;40;40;40;40;40;40;40;40;40;40;40;40;40;40;40;40;40;40;40;
   40;40;40;40;40;40;40;40;40;40;40;40;40;40;40;40;40;40;40;40;40;40;40;40;40;40;40;40;40;40;40;40;40;40;40;40;40;40;
   40;40;40;40;40;40;40;40;40;40;40;40;40;40;40;40;40;40;40;40;40;40;40;40;40;40;40;40;40;40;40;40;40;40;40;40;40;40;
   40;40;40;40;40;40;40;40;40;40;40;40;40;40;40;40;40;40;40;40;40;40;40;40;40;40;40;40;40;40;40;40;40;40;40;40;40;40;
   40;40;40;40;40;40;40;40;40;40;40;40;40;40;40;40;40;40;40;40;40;40;40;40;40;40;40;40;40;40;40;40;40;40;40;40;40;40;
   40;40;40;40;40;40;40;40;40;40;40;40;40;40;40;40;40;40;40;40;40;40;40;40;40;40;40;40;40;40;40;40;40;40;40;40;40;40;
   40;40;40;40;40;40;40;40;40;40;40;40;40;40;40;40;40;40;40;40;40;40;40;40;40;40;40;40];
  [40;40;40;40;40;40;40;40;40;40;40;40;40;40;40;40;40;40;40;40;40;40;40;40;40;40;40;40;40;40;40;40;40;40;40;40;40;40;
   40;40;40;40;40;40;40;40;40;40;40;40;40;40;40;40;40;40;40;40;40;40;40;40;40;40;40;40;40;40;40;40;40;40;40;56;40;40;
   40;40;56;56;40;40;40;40;40;40;40;56;40;56;40;40;40;40;56;56;40;40;40;40;40;40;40;40;40;40;40;40;40;40;40;40;40;40;
   40;40;40;40;40;40;40;40;40;40;40;40;40;40;40;40;40;40;40;40;40;40;40;56;40;40;40;40;56;56;40;40;40;40;40;40;40;40;
   40;40;40;40;40;40;40;40;40;40;40;40;40;40;40;40;40;40;40;40;40;40;40;40;40;56;40;40;40;40;56;56;40;40;40;40;40;40;
   40;56;40;56;40;40;40;40;56;56;40;40;40;40;40;40;40;40;40;40;40;40;40;40;40;56;40;40;40;40;40;40;40;40;40;40;40;40;
   40;40;40;40;40;40;40;40;40;40;40;40;40;40;40;40;40;40;40;40;40;40;40;40;40;40;40;40];
  [40;40;40;40;40;40;40;40;40;40;40;40;40;40;40;40;40;56;40;40;40;40;56;56;40;40;40;40;40;40;40;40;40;40;40;40;40;40;
   40;40;40;40;40;40;40;40;40;40;40;40;40;40;40;40;40;40;40;40;40;40;40;40;40;40;40;40;40;40;40;40;40;40;40;40;40;40;
   40;40;40;40;40;40;40;40;40;40;40;40;40;40;40;56;56;54;54;54;3;3;3;3;3;3;3;3;3;83;83;83;83;83;83;83;83;83;18;18;18;
   18;18;18;18;18;18;18;18;56;56;56;40;40;40;40;40;40;40;40;40;40;40;40;40;40;40;40;14;14;14;14;14;14;14;14;14;14;56;
   56;56;56;56;56;23;23;23;23;23;23;23;23;23;23;23;23;23;23;23;23;23;23;23;23;23;23;23;23;23;23;23;23;23;23;23;23;23;
   23;23;23;23;23;23;23;23;23;23;23;23;23;23;23;23;23;23;23;23;23;23;23;23;23;23;23;23;23;23;23;23;23;23;23;23;23;23;
   23;23;23;23;23;23;23;23;23;23;23;23;23;23;23;56;56;84;84;84;84;84;84;56;56];
  [8;40;40;40;40;40;40;40;40;40;40;40;40;40;40;40;40;40;40;40;40;40;40;40;40;40;40;40;40;40;40;40;40;40;40;40;40;40;
   40;40;40;40;40;40;40;40;40;40;40;40;40;40;40;40;40;40;40;40;40;40;40;40;40;40;40;40;40;40;40;40;40;40;40;40;40;40;
   40;40;40;40;40;40;40;40;40;40;40;40;40;40;40;40;40;40;40;40;40;40;40;40;40;40;40;40;40;40;40;40;40;40;40;40;40;40;
   40;40;40;40;40;40;40;40;40;40;40;40;40;40;40;40;40;40;40;40;40;40;40;40;40;40;40;40;40;40;40;40;40;40;40;40;40;40;
   40;40;40;40;40;40;40;40;40;40;40;40;40;40;40;40;40;40;40;40;40;40;40;40;40;40;40;40;40;40;40;40;40;40;40;40;40;40;
   40;40;40;40;40;40;40;40;40;40;40;40;40;40;40;40;40;40;40;40;40;40;40;40;40;40;40;40;40;40;40;40;40;40;40;40;40;40;
   40;40;40;40;40;40;40;40;40;40;40;40;40;40;40;40;40;40;40;40;40;40;40;40;40;40;40;40];
  [40;40;40;40;40;40;40;40;40;40;40;40;40;40;40;40;40;40;40;40;40;40;40;40;40;40;40;40;40;40;40;40;40;40;40;40;40;40;
   40;40;40;40;40;40;40;40;40;40;40;40;40;40;40;40;40;40;40;40;40;40;40;40;40;40;40;40;40;40;40;40;40;40;40;40;40;40;
   40;40;40;40;40;40;40;40;40;40;40;40;40;40;40;40;40;40;40;40;40;40;40;40;40;40;40;40;40;40;40;40;40;14;3;40;40;40;
   40;40;40;40;40;40;40;40;40;40;40;40;40;40;2;40;40;40;40;40;40;40;40;40;40;40;40;40;40;40;40;40;40;40;40;40;40;40;
   40;40;40;5;6;56;56;56;40;40;40;40;40;40;40;40;40;40;40;40;40;40;40;40;40;40;40;40;40;40;40;40;40;40;40;40;40;40;40;
   40;40;40;40;40;40;40;40;40;40;40;40;40;40;40;40;40;40;40;40;40;40;40;40;40;40;40;40;40;40;40;40;40;40;40;40;40;40;
   40;40;40;40;40;40;3;3;3;85;85;85;40;40;40;40;40;40;40;40;56;56;56;56;56;56;56];
  [40;40;40;40;40;40;40;40;40;40;40;40;40;40;40;40;40;40;78;78;54;81;56;56;56;56;56;56;56;56;56;40;40;40;40;40;40;40;
   40;40;40;40;40;40;40;40;40;40;40;40;78;78;81;3;3;56;56;56;56;56;56;56;56;56;40;40;40;40;40;40;40;40;40;40;40;40;40;
   40;40;40;40;40;78;78;56;56;56;56;56;56;56;56;56;56;56;56;40;40;40;40;40;40;40;40;40;40;40;40;40;56;40;40;40;56;78;
   78;56;56;56;56;56;56;56;56;56;56;56;56;40;40;40;40;40;40;40;40;40;40;40;40;40;40;40;40;40;40;40;40;40;40;40;40;40;
   40;40;40;40;40;40;40;40;40;40;40;40;40;40;40;40;40;40;40;40;40;40;40;40;40;40;40;54;54;79;78;78;78;78;78;78;78;79;
   79;79;79;79;79;79;79;78;79;79;54;54;54;54;54;54;54;54;54;54;54;3;3;3;53;3;3;3;4;40;54;56;56;9;9;9;9;9;9;9;9;9;9;56;
   56;56;56;56;56;18;18;18;18;18;18;18;18;18;18;56;56;56;56;56;56];
  [3;3;3;3;3;3;8;3;3;3;3;54;54;54;17;54;9;9;9;9;9;9;9;9;9;9;56;56;56;56;56;56;40;40;40;40;40;40;40;40;40;40;40;40;40;
   40;40;40;40;40;40;40;40;40;40;40;40;40;40;40;40;40;40;40;40;40;40;53;40;40;40;40;40;40;40;40;40;40;40;40;40;40;40;
   40;40;40;40;40;40;40;40;40;40;40;40;40;40;40;40;40;40;40;40;40;40;40;40;40;40;40;40;40;40;40;40;40;40;40;40;40;40;
   56;56;56;56;56;56;56;40;40;40;40;40;86;86;40;40;40;40;40;40;40;40;40;40;40;40;40;40;40;40;40;40;40;40;40;40;40;40;
   40;40;40;40;40;40;40;40;40;40;78;40;56;56;56;56;56;40;40;40;40;40;40;40;40;40;40;40;40;40;40;40;40;40;40;40;40;40;
   40;40;40;40;40;40;40;40;40;40;40;40;40;40;40;40;40;40;40;40;40;40;40;40;40;40;40;40;40;40;40;40;40;40;40;40;40;40;
   40;40;40;40;40;40;40;40;40;40;40;56;56;56;56;56;56;56;56;56;56];
  [40;40;40;40;40;40;40;40;40;40;40;40;40;40;40;40;40;40;40;40;40;40;40;40;40;40;40;40;40;40;40;56;78;78;78;79;79;79;
   79;78;78;79;79;79;56;56;56;56;79;79;78;79;79;79;79;79;79;54;54;54;56;56;56;56;14;56;56;56;3;3;9;9;9;9;9;9;9;9;9;9;
   40;40;40;40;40;40;40;40;40;40;40;40;40;40;40;40;40;40;40;40;40;40;40;40;40;40;40;40;40;40;56;56;40;40;40;40;40;56;
   56;56;56;56;56;56;56;56;56;56;40;40;40;40;40;40;40;40;40;40;40;40;40;40;40;40;40;40;40;40;40;40;40;40;40;40;40;40;
   40;40;40;40;40;40;40;40;40;40;40;40;40;40;40;40;56;56;56;56;40;40;40;40;40;40;40;40;40;40;40;40;40;40;40;40;40;40;
   40;40;40;40;40;40;40;40;56;56;56;56;56;56;9;9;9;9;9;9;9;9;9;9;83;56;56;56;14;14;14;14;14;14;14;14;14;14;14;14;14;
   14;14;14;14;14;14;14;14;14;14;14;14;14;14;14;14;14;14;14;14;14];
  [40;40;40;40;40;40;40;40;40;40;40;40;40;40;40;40;40;40;40;40;40;40;40;78;78;79;79;78;56;56;3;3;40;40;40;40;40;40;40;
   40;40;40;40;40;40;40;40;40;40;40;40;40;40;40;40;40;40;40;40;40;40;40;40;40;40;40;40;40;40;40;40;40;40;40;40;40;40;
   40;40;40;40;40;40;40;40;79;78;79;78;78;78;78;78;78;78;56;54;79;78;79;79;78;78;78;78;78;78;78;78;79;79;79;79;79;79;
   78;78;54;54;54;54;54;54;54;54;56;56;54;9;9;9;9;9;9;9;9;9;9;56;56;56;56;56;56;9;9;9;9;9;9;9;9;9;9;56;56;56;56;56;56;
   3;3;3;3;3;3;3;53;3;3;3;3;3;3;56;56;54;54;54;54;54;54;54;54;54;54;54;54;54;54;75;78;78;54;54;54;54;54;54;54;54;54;
   54;54;78;78;78;56;56;56;56;56;56;56;56;56;56;56;56;56;56;56;56;56;56;56;56;56;56;56;56;56;56;56;56;56;56;56;56;56;
   56;56;56;56;56;56;56;56;56;56;56;56;56;56;56;56];
  [78;78;78;78;79;40;40;40;40;40;40;40;40;40;40;40;40;40;40;40;40;40;40;40;40;40;40;40;40;40;40;40;40;40;40;40;40;40;
   40;40;40;40;40;40;40;40;40;40;40;40;40;40;54;79;78;78;78;78;78;79;78;79;79;79;79;79;78;79;81;40;40;40;40;40;40;40;
   40;56;56;56;9;9;9;9;9;9;9;9;9;9;3;3;3;3;3;3;3;14;14;14;14;14;14;14;14;14;14;54;54;54;54;54;54;54;54;54;14;14;14;14;
   14;14;14;14;14;3;3;56;78;78;79;40;40;40;40;40;40;40;40;40;40;40;40;40;40;40;40;40;40;40;40;40;40;40;40;40;40;40;40;
   40;40;79;78;78;78;78;79;79;78;78;81;54;78;78;40;40;9;9;9;9;9;9;9;9;9;9;40;40;40;40;40;40;40;40;40;40;40;40;40;40;
   40;40;40;40;40;40;40;40;40;40;40;40;40;40;40;40;40;40;40;40;40;40;40;40;40;40;40;40;40;40;54;79;78;78;79;79;79;78;
   79;78;78;78;81;81;56;56;56;56;56;56;56;56;3;3;3;3];
  [40;40;40;40;40;40;40;40;40;40;40;40;40;40;40;40;40;40;40;40;40;40;40;40;40;40;40;40;40;40;40;40;40;40;40;40;79;79;
   79;79;79;79;79;79;78;78;78;78;78;78;78;78;79;79;78;54;56;56;56;3;3;3;3;3;9;9;9;9;9;9;9;9;9;9;56;56;56;40;40;40;9;9;
   9;9;9;9;9;9;9;9;40;40;40;40;40;40;40;40;40;40;40;40;40;40;40;40;40;40;40;40;40;40;40;40;40;40;40;40;40;40;53;53;53;
   53;53;53;3;3;87;88;89;90;90;91;92;93;94;56;56;56;56;56;56;56;95;95;95;95;95;95;95;95;95;95;95;95;95;95;95;95;95;95;
   95;95;95;95;95;95;95;95;95;95;95;95;95;95;95;95;95;95;95;95;95;95;95;95;95;56;56;95;95;95;3;3;3;3;3;3;3;3;56;56;56;
   56;56;56;56;56;54;54;54;3;54;54;54;54;54;54;54;54;54;54;54;54;54;81;54;54;54;54;54;54;54;40;40;40;40;54;40;40;40;
   40;40;40;54;40;40;81;54;54;40;56;56;56;56;56];
  [13;13;13;13;13;13;13;13;13;13;13;13;13;13;13;13;13;13;13;13;13;13;13;13;13;13;13;13;13;13;13;13;13;13;13;13;13;13;
   13;13;13;13;13;13;52;52;52;52;52;52;52;52;52;52;52;52;52;52;52;52;52;52;52;52;52;52;52;52;52;52;52;52;52;52;52;52;
   52;52;52;52;52;52;52;52;52;52;52;52;52;52;52;52;52;52;52;52;52;52;52;52;52;52;52;52;52;52;52;13;13;13;13;13;13;13;
   13;13;13;13;13;13;52;13;13;13;13;13;13;13;13;13;13;13;13;13;13;13;13;13;13;13;13;13;13;13;13;13;13;13;13;13;13;13;
   13;13;13;52;52;52;52;52;52;52;52;52;52;52;52;52;52;52;52;52;52;52;52;52;52;52;52;52;52;52;52;52;52;52;52;52;52;52;
   52;52;54;54;54;54;54;54;54;54;54;54;54;54;54;54;54;54;54;54;54;54;54;54;54;54;54;54;54;54;54;54;54;54;54;54;54;54;
   54;54;54;78;78;78;78;78;78;78;78;78;78;78;78;78;78;54;54;54;54;54;54;54;54;54;54;54];
  [22;13;22;13;22;13;22;13;22;13;22;13;22;13;22;13;22;13;22;13;22;13;22;13;22;13;22;13;22;13;22;13;22;13;22;13;22;13;
   22;13;22;13;22;13;22;13;22;13;22;13;22;13;22;13;22;13;22;13;22;13;22;13;22;13;22;13;22;13;22;13;22;13;22;13;22;13;
   22;13;22;13;22;13;22;13;22;13;22;13;22;13;22;13;22;13;22;13;22;13;22;13;22;13;22;13;22;13;22;13;22;13;22;13;22;13;
   22;13;22;13;22;13;22;13;22;13;22;13;22;13;22;13;22;13;22;13;22;13;22;13;22;13;22;13;22;13;22;13;22;13;22;13;13;13;
   13;13;13;96;13;13;97;13;22;13;22;13;22;13;22;13;22;13;22;13;22;13;22;13;22;13;22;13;22;13;22;13;22;13;22;13;22;13;
   22;13;22;13;22;13;22;13;22;13;22;13;22;13;22;13;22;13;22;13;22;13;22;13;22;13;22;13;22;13;22;13;22;13;22;13;22;13;
   22;13;22;13;22;13;22;13;22;13;22;13;22;13;22;13;22;13;22;13;22;13;22;13;22;13;22;13];
  [13;13;13;13;13;13;13;13;98;98;98;98;98;98;98;98;13;13;13;13;13;13;56;56;98;98;98;98;98;98;56;56;13;13;13;13;13;13;
   13;13;98;98;98;98;98;98;98;98;13;13;13;13;13;13;13;13;98;98;98;98;98;98;98;98;13;13;13;13;13;13;56;56;98;98;98;98;
   98;98;56;56;13;13;13;13;13;13;13;13;56;98;56;98;56;98;56;98;13;13;13;13;13;13;13;13;98;98;98;98;98;98;98;98;13;13;
   13;13;13;13;13;13;13;13;13;13;13;13;56;56;13;13;13;13;13;13;13;13;99;99;99;99;99;99;99;99;13;13;13;13;13;13;13;13;
   99;99;99;99;99;99;99;99;13;13;13;13;13;13;13;13;99;99;99;99;99;99;99;99;13;13;13;13;13;56;13;13;98;98;100;100;101;
   11;102;11;11;11;13;13;13;56;13;13;103;103;103;103;101;11;11;11;13;13;13;13;56;56;13;13;98;98;104;104;56;11;11;11;
   13;13;13;13;13;13;13;13;98;98;105;105;73;11;11;11;56;56;13;13;13;56;13;13;106;106;107;107;101;11;11;56];
  [2;2;2;2;2;2;2;2;2;2;2;17;108;108;17;17;8;8;8;8;8;8;3;3;16;21;5;16;16;21;5;16;3;3;3;3;3;3;3;3;109;110;17;17;17;17;
   17;2;3;3;3;3;3;3;3;3;3;16;21;3;3;3;3;12;12;3;3;3;7;5;6;3;3;3;3;3;3;3;3;3;3;3;7;3;12;3;3;3;3;3;3;3;3;3;3;2;17;17;17;
   17;17;56;17;17;17;17;17;17;17;17;17;17;18;52;56;56;18;18;18;18;18;18;7;7;7;5;6;52;18;18;18;18;18;18;18;18;18;18;7;
   7;7;5;6;56;52;52;52;52;52;52;52;52;52;52;52;52;52;56;56;56;4;4;4;4;4;4;4;4;4;4;4;4;4;4;4;4;4;4;4;4;4;4;4;4;4;4;4;4;
   4;4;4;4;4;56;56;56;56;56;56;56;56;56;56;56;56;56;56;56;54;54;54;54;54;54;54;54;54;54;54;54;54;75;75;75;75;54;75;75;
   75;54;54;54;54;54;54;54;54;54;54;54;54;56;56;56;56;56;56;56;56;56;56;56;56;56;56;56];
  [14;14;23;14;14;14;14;23;14;14;13;23;23;23;13;13;23;23;23;13;14;23;14;14;111;23;23;23;23;23;14;14;14;14;14;14;23;14;
   112;14;23;14;113;114;23;23;115;13;23;23;116;23;13;40;40;40;40;13;14;14;13;13;23;23;7;7;7;7;7;23;13;13;13;13;14;7;
   14;14;13;14;18;18;18;18;18;18;18;18;18;18;18;18;18;18;18;18;117;117;117;117;117;117;117;117;117;117;117;117;117;
   117;117;117;118;118;118;118;118;118;118;118;118;118;118;118;118;118;118;118;85;85;85;22;13;85;85;85;85;18;14;14;56;
   56;56;56;7;7;7;7;7;14;14;14;14;14;7;7;14;14;14;14;7;14;14;7;14;14;7;14;14;14;14;14;14;14;7;14;14;14;14;14;14;14;14;
   14;14;14;14;14;14;14;14;14;14;14;14;14;14;14;14;14;14;14;14;14;14;14;7;7;14;14;7;14;7;14;14;14;14;14;14;14;14;14;
   14;14;14;14;14;14;14;14;14;14;14;14;14;14;14;14;14;14;14;14;14;14;7;7;7;7;7;7;7;7;7;7;7;7];
  [7;7;7;7;7;7;7;7;7;7;7;7;7;7;7;7;7;7;7;7;7;7;7;7;7;7;7;7;7;7;7;7;7;7;7;7;7;7;7;7;7;7;7;7;7;7;7;7;7;7;7;7;7;7;7;7;7;
   7;7;7;7;7;7;7;7;7;7;7;7;7;7;7;7;7;7;7;7;7;7;7;7;7;7;7;7;7;7;7;7;7;7;7;7;7;7;7;7;7;7;7;7;7;7;7;7;7;7;7;7;7;7;7;7;7;
   7;7;7;7;7;7;7;7;7;7;7;7;7;7;7;7;7;7;7;7;7;7;7;7;7;7;7;7;7;7;7;7;7;7;7;7;7;7;7;7;7;7;7;7;7;7;7;7;7;7;7;7;7;7;7;7;7;
   7;7;7;7;7;7;7;7;7;7;7;7;7;7;7;7;7;7;7;7;7;7;7;7;7;7;7;7;7;7;7;7;7;7;7;7;7;7;7;7;7;7;7;7;7;7;7;7;7;7;7;7;7;7;7;7;7;
   7;7;7;7;7;7;7;7;7;7;7;7;7;7;7;7;7;7;7;7;7;7;7;7;7;7;7;7];
  [14;14;14;14;14;14;14;14;5;6;5;6;14;14;14;14;14;14;14;14;14;14;14;14;14;14;14;14;14;14;14;14;7;7;14;14;14;14;14;14;
   14;5;6;14;14;14;14;14;14;14;14;14;14;14;14;14;14;14;14;14;14;14;14;14;14;14;14;14;14;14;14;14;14;14;14;14;14;14;14;
   14;14;14;14;14;14;14;14;14;14;14;14;14;14;14;14;14;14;14;14;14;14;14;14;14;14;14;14;14;14;14;14;14;14;14;14;14;14;
   14;14;14;14;14;14;14;7;14;14;14;14;14;14;14;14;14;14;14;14;14;14;14;14;14;14;14;14;14;14;14;14;14;14;14;14;14;14;7;
   7;7;7;7;7;7;7;7;7;7;7;7;7;7;7;7;7;7;7;7;7;7;7;7;14;14;14;14;14;14;14;14;14;14;14;14;14;14;14;14;14;14;14;14;14;14;
   14;14;14;14;14;14;14;14;14;14;14;14;14;14;14;14;14;14;7;7;7;7;7;7;14;14;14;14;14;14;14;14;14;14;14;14;14;14;14;14;
   14;14;14;14;14;14;14;14;14;14;14;14;14;14];
  [14;14;14;14;14;14;14;14;14;14;14;14;14;14;14;14;14;14;14;14;14;14;14;14;14;14;14;14;14;14;14;14;14;14;14;14;14;14;
   14;56;56;56;56;56;56;56;56;56;56;56;56;56;56;56;56;56;56;56;56;56;56;56;56;56;14;14;14;14;14;14;14;14;14;14;14;56;
   56;56;56;56;56;56;56;56;56;56;56;56;56;56;56;56;56;56;56;56;18;18;18;18;18;18;18;18;18;18;18;18;18;18;18;18;18;18;
   18;18;18;18;18;18;18;18;18;18;18;18;18;18;18;18;18;18;18;18;18;18;18;18;18;18;18;18;18;18;18;18;18;18;18;18;18;18;
   18;18;18;18;14;14;14;14;14;14;14;14;14;14;14;14;14;14;14;14;14;14;14;14;14;14;14;14;14;14;119;119;119;119;119;119;
   119;119;119;119;119;119;119;119;119;119;119;119;119;119;119;119;119;119;119;119;120;120;120;120;120;120;120;120;
   120;120;120;120;120;120;120;120;120;120;120;120;120;120;120;120;120;120;18;18;18;18;18;18;18;18;18;18;18;18;18;18;
   18;18;18;18;18;18;18;18];
  [14;14;14;14;14;14;14;14;14;14;14;14;14;14;14;14;14;14;14;14;14;14;14;14;14;14;14;14;14;14;14;14;14;14;14;14;14;14;
   14;14;14;14;14;14;14;14;14;14;14;14;14;14;14;14;14;14;14;14;14;14;14;14;14;14;14;14;14;14;14;14;14;14;14;14;14;14;
   14;14;14;14;14;14;14;14;14;14;14;14;14;14;14;14;14;14;14;14;14;14;14;14;14;14;14;14;14;14;14;14;14;14;14;14;14;14;
   14;14;14;14;14;14;14;14;14;14;14;14;14;14;14;14;14;14;14;14;14;14;14;14;14;14;14;14;14;14;14;14;14;14;14;14;14;14;
   14;14;14;14;14;14;14;14;14;14;14;14;14;14;14;14;14;14;14;14;14;14;14;14;14;14;14;14;14;14;14;7;14;14;14;14;14;14;
   14;14;14;7;14;14;14;14;14;14;14;14;14;14;14;14;14;14;14;14;14;14;14;14;14;14;14;14;14;14;14;14;14;14;14;14;14;14;
   14;14;14;14;14;14;14;14;14;14;14;14;14;14;14;14;14;14;14;14;7;7;7;7;7;7;7;7];
  [14;14;14;14;14;14;14;14;14;14;14;14;14;14;14;14;14;14;14;14;14;14;14;14;14;14;14;14;14;14;14;14;14;14;14;14;14;14;
   14;14;14;14;14;14;14;14;14;14;14;14;14;14;14;14;14;14;14;14;14;14;14;14;14;14;14;14;14;14;14;14;14;14;14;14;14;14;
   14;14;14;14;14;14;14;14;14;14;14;14;14;14;14;14;14;14;14;14;14;14;14;14;14;14;14;14;14;14;14;14;14;14;14;7;14;14;
   14;14;14;14;14;14;14;14;14;14;14;14;14;14;14;14;14;14;14;14;14;14;14;14;14;14;14;14;14;14;14;14;14;14;14;14;14;14;
   14;14;14;14;14;14;14;14;14;14;14;14;14;14;14;14;14;14;14;14;14;14;14;14;14;14;14;14;14;14;14;14;14;14;14;14;14;14;
   14;14;14;14;14;14;14;14;14;14;14;14;14;14;14;14;14;14;14;14;14;14;14;14;14;14;14;14;14;14;14;14;14;14;14;14;14;14;
   14;14;14;14;14;14;14;14;14;14;14;14;14;14;14;14;14;14;14;14;14;14;14;14;14;14;14;14];
  [14;14;14;14;14;14;14;14;14;14;14;14;14;14;14;14;14;14;14;14;14;14;14;14;14;14;14;14;14;14;14;14;14;14;14;14;14;14;
   14;14;14;14;14;14;14;14;14;14;14;14;14;14;14;14;14;14;14;14;14;14;14;14;14;14;14;14;14;14;14;14;14;14;14;14;14;14;
   14;14;14;14;14;14;14;14;14;14;14;14;14;14;14;14;14;14;14;14;14;14;14;14;14;14;14;14;5;6;5;6;5;6;5;6;5;6;5;6;5;6;18;
   18;18;18;18;18;18;18;18;18;18;18;18;18;18;18;18;18;18;18;18;18;18;18;18;18;18;18;18;18;14;14;14;14;14;14;14;14;14;
   14;14;14;14;14;14;14;14;14;14;14;14;14;14;14;14;14;14;14;14;14;14;14;14;14;14;14;14;14;14;14;14;14;14;14;7;7;7;7;7;
   5;6;7;7;7;7;7;7;7;7;7;7;7;7;7;7;7;7;7;7;7;7;7;7;7;7;7;7;7;7;7;7;7;5;6;5;6;5;6;5;6;5;6;7;7;7;7;7;7;7;7;7;7;7;7;7;7;
   7;7];
  [14;14;14;14;14;14;14;14;14;14;14;14;14;14;14;14;14;14;14;14;14;14;14;14;14;14;14;14;14;14;14;14;14;14;14;14;14;14;
   14;14;14;14;14;14;14;14;14;14;14;14;14;14;14;14;14;14;14;14;14;14;14;14;14;14;14;14;14;14;14;14;14;14;14;14;14;14;
   14;14;14;14;14;14;14;14;14;14;14;14;14;14;14;14;14;14;14;14;14;14;14;14;14;14;14;14;14;14;14;14;14;14;14;14;14;14;
   14;14;14;14;14;14;14;14;14;14;14;14;14;14;14;14;14;14;14;14;14;14;14;14;14;14;14;14;14;14;14;14;14;14;14;14;14;14;
   14;14;14;14;14;14;14;14;14;14;14;14;14;14;14;14;14;14;14;14;14;14;14;14;14;14;14;14;14;14;14;14;14;14;14;14;14;14;
   14;14;14;14;14;14;14;14;14;14;14;14;14;14;14;14;14;14;14;14;14;14;14;14;14;14;14;14;14;14;14;14;14;14;14;14;14;14;
   14;14;14;14;14;14;14;14;14;14;14;14;14;14;14;14;14;14;14;14;14;14;14;14;14;14;14;14];
  [7;7;7;7;7;7;7;7;7;7;7;7;7;7;7;7;7;7;7;7;7;7;7;7;7;7;7;7;7;7;7;7;7;7;7;7;7;7;7;7;7;7;7;7;7;7;7;7;7;7;7;7;7;7;7;7;7;
   7;7;7;7;7;7;7;7;7;7;7;7;7;7;7;7;7;7;7;7;7;7;7;7;7;7;7;7;7;7;7;7;7;7;7;7;7;7;7;7;7;7;7;7;7;7;7;7;7;7;7;7;7;7;7;7;7;
   7;7;7;7;7;7;7;7;7;7;7;7;7;7;7;7;7;5;6;5;6;5;6;5;6;5;6;5;6;5;6;5;6;5;6;5;6;5;6;7;7;7;7;7;7;7;7;7;7;7;7;7;7;7;7;7;7;
   7;7;7;7;7;7;7;7;7;7;7;7;7;7;7;7;7;7;7;7;7;7;7;7;7;7;7;7;7;7;7;7;7;7;7;7;7;7;7;7;7;7;7;7;7;5;6;5;6;7;7;7;7;7;7;7;7;
   7;7;7;7;7;7;7;7;7;7;7;7;7;7;7;7;7;7;7;7;7;7;7;7;5;6;7;7];
  [14;14;14;14;14;14;14;14;14;14;14;14;14;14;14;14;14;14;14;14;14;14;14;14;14;14;14;14;14;14;14;14;14;14;14;14;14;14;
   14;14;14;14;14;14;14;14;14;14;7;7;7;7;7;7;7;7;7;7;7;7;7;7;7;7;7;7;7;7;7;14;14;7;7;7;7;7;7;14;14;14;14;14;14;14;14;
   14;14;14;14;14;14;14;14;14;14;14;14;14;14;14;14;14;14;14;14;14;14;14;14;14;14;14;14;14;14;14;56;56;14;14;14;14;14;
   14;14;14;14;14;14;14;14;14;14;14;14;14;14;14;14;14;14;14;14;14;14;14;14;14;14;14;56;14;14;14;14;14;14;14;14;14;14;
   14;14;14;14;14;14;14;14;14;14;14;14;14;14;14;14;14;14;14;14;14;14;14;14;14;14;14;14;14;14;14;14;14;14;14;14;14;14;
   14;14;14;14;14;14;14;14;14;14;14;14;14;14;14;14;14;14;14;14;14;14;14;14;14;14;14;14;14;14;14;14;14;14;14;14;14;14;
   14;14;14;14;14;14;14;14;14;14;14;14;14;14;14;14;14;14;14];
  [77;77;77;77;77;77;77;77;77;77;77;77;77;77;77;77;77;77;77;77;77;77;77;77;77;77;77;77;77;77;77;77;77;77;77;77;77;77;
   77;77;77;77;77;77;77;77;77;77;13;13;13;13;13;13;13;13;13;13;13;13;13;13;13;13;13;13;13;13;13;13;13;13;13;13;13;13;
   13;13;13;13;13;13;13;13;13;13;13;13;13;13;13;13;13;13;13;13;22;13;121;122;123;13;13;22;13;22;13;22;13;124;125;126;
   127;13;22;13;13;22;13;13;13;13;13;13;52;52;128;128;22;13;22;13;22;13;22;13;22;13;22;13;22;13;22;13;22;13;22;13;22;
   13;22;13;22;13;22;13;22;13;22;13;22;13;22;13;22;13;22;13;22;13;22;13;22;13;22;13;22;13;22;13;22;13;22;13;22;13;22;
   13;22;13;22;13;22;13;22;13;22;13;22;13;22;13;22;13;22;13;22;13;22;13;22;13;22;13;22;13;22;13;22;13;22;13;22;13;22;
   13;22;13;13;14;14;14;14;14;14;22;13;22;13;54;54;54;22;13;56;56;56;56;56;3;3;3;3;18;3;3];
  [13;13;13;13;13;13;13;13;13;13;13;13;13;13;13;13;13;13;13;13;13;13;13;13;13;13;13;13;13;13;13;13;13;13;13;13;13;13;
   56;13;56;56;56;56;56;13;56;56;40;40;40;40;40;40;40;40;40;40;40;40;40;40;40;40;40;40;40;40;40;40;40;40;40;40;40;40;
   40;40;40;40;40;40;40;40;40;40;40;40;40;40;40;40;40;40;40;40;40;40;40;40;40;40;40;40;56;56;56;56;56;56;56;53;3;56;
   56;56;56;56;56;56;56;56;56;56;56;56;56;54;40;40;40;40;40;40;40;40;40;40;40;40;40;40;40;40;40;40;40;40;40;40;40;56;
   56;56;56;56;56;56;56;56;40;40;40;40;40;40;40;56;40;40;40;40;40;40;40;56;40;40;40;40;40;40;40;56;40;40;40;40;40;40;
   40;56;40;40;40;40;40;40;40;56;40;40;40;40;40;40;40;56;40;40;40;40;40;40;40;56;40;40;40;40;40;40;40;56;78;78;78;78;
   78;78;78;78;78;78;78;78;78;78;78;78;78;78;78;78;78;78;78;78;78;78;78;78;78;78;78;78];
  [3;3;16;21;16;21;3;3;3;16;21;3;16;21;3;3;3;3;3;3;3;3;3;8;3;3;8;3;16;21;3;3;16;21;5;6;5;6;5;6;5;6;3;3;3;3;3;129;3;3;
   3;3;3;3;3;3;3;3;8;8;3;3;3;3;8;3;5;3;3;3;3;3;3;3;3;3;3;3;3;3;14;14;3;3;3;5;6;5;6;5;6;5;6;8;56;56;56;56;56;56;56;56;
   56;56;56;56;56;56;56;56;56;56;56;56;56;56;56;56;56;56;56;56;56;56;56;56;56;56;14;14;14;14;14;14;14;14;14;14;14;14;
   14;14;14;14;14;14;14;14;14;14;14;14;14;14;56;14;14;14;14;14;14;14;14;14;14;14;14;14;14;14;14;14;14;14;14;14;14;14;
   14;14;14;14;14;14;14;14;14;14;14;14;14;14;14;14;14;14;14;14;14;14;14;14;14;14;14;14;14;14;14;14;14;14;14;14;14;14;
   14;14;14;14;14;14;14;14;14;14;14;14;14;14;14;14;14;14;14;14;14;14;14;14;14;14;14;14;56;56;56;56;56;56;56;56;56;56;
   56;56];
  [14;14;14;14;14;14;14;14;14;14;14;14;14;14;14;14;14;14;14;14;14;14;14;14;14;14;14;14;14;14;14;14;14;14;14;14;14;14;
   14;14;14;14;14;14;14;14;14;14;14;14;14;14;14;14;14;14;14;14;14;14;14;14;14;14;14;14;14;14;14;14;14;14;14;14;14;14;
   14;14;14;14;14;14;14;14;14;14;14;14;14;14;14;14;14;14;14;14;14;14;14;14;14;14;14;14;14;14;14;14;14;14;14;14;14;14;
   14;14;14;14;14;14;14;14;14;14;14;14;14;14;14;14;14;14;14;14;14;14;14;14;14;14;14;14;14;14;14;14;14;14;14;14;14;14;
   14;14;14;14;14;14;14;14;14;14;14;14;14;14;14;14;14;14;14;14;14;14;14;14;14;14;14;14;14;14;14;14;14;14;14;14;14;14;
   14;14;14;14;14;14;14;14;14;14;14;14;14;14;14;14;14;14;14;14;14;14;14;14;56;56;56;56;56;56;56;56;56;56;56;56;56;56;
   56;56;56;56;56;56;56;56;56;56;56;56;14;14;14;14;14;14;14;14;14;14;14;14;56;56;56;56];
  [2;3;3;3;14;53;40;85;5;6;5;6;5;6;5;6;5;6;14;14;5;6;5;6;5;6;5;6;8;5;6;6;14;85;85;85;85;85;85;85;85;85;54;54;54;54;81;
   81;8;53;53;53;53;53;14;14;85;85;85;53;40;3;14;14;56;40;40;40;40;40;40;40;40;40;40;40;40;40;40;40;40;40;40;40;40;40;
   40;40;40;40;40;40;40;40;40;40;40;40;40;40;40;40;40;40;40;40;40;40;40;40;40;40;40;40;40;40;40;40;40;40;40;40;40;40;
   40;40;40;40;40;40;40;40;40;40;40;40;40;40;40;40;40;40;40;40;40;40;40;40;40;40;40;56;56;54;54;11;11;53;53;40;8;40;
   40;40;40;40;40;40;40;40;40;40;40;40;40;40;40;40;40;40;40;40;40;40;40;40;40;40;40;40;40;40;40;40;40;40;40;40;40;40;
   40;40;40;40;40;40;40;40;40;40;40;40;40;40;40;40;40;40;40;40;40;40;40;40;40;40;40;40;40;40;40;40;40;40;40;40;40;40;
   40;40;40;40;40;40;40;40;40;40;40;40;40;3;53;53;53;40];
  [56;56;56;56;56;40;40;40;40;40;40;40;40;40;40;40;40;40;40;40;40;40;40;40;40;40;40;40;40;40;40;40;40;40;40;40;40;40;
   40;40;40;40;40;40;40;40;40;40;56;40;40;40;40;40;40;40;40;40;40;40;40;40;40;40;40;40;40;40;40;40;40;40;40;40;40;40;
   40;40;40;40;40;40;40;40;40;40;40;40;40;40;40;40;40;40;40;40;40;40;40;40;40;40;40;40;40;40;40;40;40;40;40;40;40;40;
   40;40;40;40;40;40;40;40;40;40;40;40;40;40;40;40;40;40;40;40;40;40;40;40;40;40;40;40;40;56;14;14;18;18;18;18;14;14;
   14;14;14;14;14;14;14;14;40;40;40;40;40;40;40;40;40;40;40;40;40;40;40;40;40;40;40;40;40;40;40;40;40;40;40;40;40;40;
   40;40;14;14;14;14;14;14;14;14;14;14;14;14;14;14;14;14;14;14;14;14;14;14;14;14;14;14;14;14;14;14;14;14;14;14;14;14;
   56;56;56;56;56;56;56;56;56;56;56;56;40;40;40;40;40;40;40;40;40;40;40;40;40;40;40;40];
  [14;14;14;14;14;14;14;14;14;14;14;14;14;14;14;14;14;14;14;14;14;14;14;14;14;14;14;14;14;14;14;56;18;18;18;18;18;18;
   18;18;18;18;14;14;14;14;14;14;14;14;14;14;14;14;14;14;14;14;14;14;14;14;14;14;14;14;14;14;14;14;14;14;18;18;18;18;
   18;18;18;18;14;18;18;18;18;18;18;18;18;18;18;18;18;18;18;18;14;14;14;14;14;14;14;14;14;14;14;14;14;14;14;14;14;14;
   14;14;14;14;14;14;14;14;14;14;14;14;14;14;18;18;18;18;18;18;18;18;18;18;14;14;14;14;14;14;14;14;14;14;14;14;14;14;
   14;14;14;14;14;14;14;14;14;14;14;14;14;14;14;14;14;14;14;14;14;14;14;14;14;18;18;18;18;18;18;18;18;18;18;18;18;18;
   18;18;14;14;14;14;14;14;14;14;14;14;14;14;14;14;14;14;14;14;14;14;14;14;14;14;14;14;14;14;14;14;14;14;14;14;14;14;
   14;14;14;14;14;14;14;14;14;14;14;14;14;14;14;14;14;14;14;14;14;14;14;14;14;14;14;14];
  [40;40;40;40;40;40;40;40;40;40;40;40;40;40;40;40;40;40;40;40;40;40;40;40;40;40;40;40;40;40;40;40;40;40;40;40;40;40;
   40;40;40;40;40;40;40;40;40;40;40;40;40;40;40;40;40;40;40;40;40;40;40;40;40;40;40;40;40;40;40;40;40;40;40;40;40;40;
   40;40;40;40;40;40;40;40;40;40;40;40;40;40;40;40;40;40;40;40;40;40;40;40;40;40;40;40;40;40;40;40;40;40;40;40;40;40;
   40;40;40;40;40;40;40;40;40;40;40;40;40;40;40;40;40;40;40;40;40;40;40;40;40;40;40;40;40;40;40;40;40;40;40;40;40;40;
   40;40;40;40;40;40;40;40;40;40;40;40;40;40;40;40;40;40;40;40;40;40;40;40;40;40;40;40;40;40;40;40;40;40;40;40;40;40;
   40;40;14;14;14;14;14;14;14;14;14;14;14;14;14;14;14;14;14;14;14;14;14;14;14;14;14;14;14;14;14;14;14;14;14;14;14;14;
   14;14;14;14;14;14;14;14;14;14;14;14;14;14;14;14;14;14;14;14;14;14;14;14;14;14;14;14];
  [40;40;40;40;40;40;40;40;40;40;40;40;40;40;40;40;40;40;40;40;40;53;40;40;40;40;40;40;40;40;40;40;40;40;40;40;40;40;
   40;40;40;40;40;40;40;40;40;40;40;40;40;40;40;40;40;40;40;40;40;40;40;40;40;40;40;40;40;40;40;40;40;40;40;40;40;40;
   40;40;40;40;40;40;40;40;40;40;40;40;40;40;40;40;40;40;40;40;40;40;40;40;40;40;40;40;40;40;40;40;40;40;40;40;40;40;
   40;40;40;40;40;40;40;40;40;40;40;40;40;40;40;40;40;40;40;40;40;40;40;40;40;40;40;40;40;40;40;40;40;40;40;40;40;40;
   40;40;40;40;40;40;40;40;40;40;40;40;40;40;40;40;40;40;40;40;40;40;40;40;40;40;40;40;40;40;40;40;40;40;40;40;40;40;
   40;40;40;40;40;40;40;40;40;40;40;40;40;40;40;40;40;40;40;40;40;40;40;40;40;40;40;40;40;40;40;40;40;40;40;40;40;40;
   40;40;40;40;40;40;40;40;40;40;40;40;40;40;40;40;40;40;40;40;40;40;40;40;40;40;40;40];
  [40;40;40;40;40;40;40;40;40;40;40;40;40;40;40;40;40;40;40;40;40;40;40;40;40;40;40;40;40;40;40;40;40;40;40;40;40;40;
   40;40;40;40;40;40;40;40;40;40;40;40;40;40;40;40;40;40;40;40;40;40;40;40;40;40;40;40;40;40;40;40;40;40;40;40;40;40;
   40;40;40;40;40;40;40;40;40;40;40;40;40;40;40;40;40;40;40;40;40;40;40;40;40;40;40;40;40;40;40;40;40;40;40;40;40;40;
   40;40;40;40;40;40;40;40;40;40;40;40;40;40;40;40;40;40;40;40;40;40;40;40;40;40;40;56;56;56;14;14;14;14;14;14;14;14;
   14;14;14;14;14;14;14;14;14;14;14;14;14;14;14;14;14;14;14;14;14;14;14;14;14;14;14;14;14;14;14;14;14;14;14;14;14;14;
   14;14;14;14;14;14;14;14;14;56;56;56;56;56;56;56;56;56;40;40;40;40;40;40;40;40;40;40;40;40;40;40;40;40;40;40;40;40;
   40;40;40;40;40;40;40;40;40;40;40;40;40;40;40;40;40;40;40;40;53;53;53;53;53;53;3;3];
  [40;40;40;40;40;40;40;40;40;40;40;40;53;3;3;3;40;40;40;40;40;40;40;40;40;40;40;40;40;40;40;40;9;9;9;9;9;9;9;9;9;9;
   40;40;56;56;56;56;56;56;56;56;56;56;56;56;56;56;56;56;56;56;56;56;22;13;22;13;22;13;22;13;22;13;22;13;22;13;22;13;
   22;13;22;13;22;13;22;13;22;13;22;13;22;13;22;13;22;13;22;13;22;13;22;13;22;13;22;13;22;13;40;54;75;75;75;3;78;78;
   78;78;78;78;78;78;54;54;3;53;22;13;22;13;22;13;22;13;22;13;22;13;22;13;22;13;22;13;22;13;22;13;22;13;22;13;22;13;
   52;52;78;78;40;40;40;40;40;40;40;40;40;40;40;40;40;40;40;40;40;40;40;40;40;40;40;40;40;40;40;40;40;40;40;40;40;40;
   40;40;40;40;40;40;40;40;40;40;40;40;40;40;40;40;40;40;40;40;40;40;40;40;40;40;40;40;40;40;40;40;40;40;40;40;85;85;
   85;85;85;85;85;85;85;85;54;54;3;3;3;3;3;3;56;56;56;56;56;56;56;56];
  [11;11;11;11;11;11;11;11;11;11;11;11;11;11;11;11;11;11;11;11;11;11;11;53;53;53;53;53;53;53;53;53;11;11;22;13;22;13;
   22;13;22;13;22;13;22;13;22;13;13;13;22;13;22;13;22;13;22;13;22;13;22;13;22;13;22;13;22;13;22;13;22;13;22;13;22;13;
   22;13;22;13;22;13;22;13;22;13;22;13;22;13;22;13;22;13;22;13;22;13;22;13;22;13;22;13;22;13;22;13;22;13;22;13;52;13;
   13;13;13;13;13;13;13;22;13;22;13;130;22;13;22;13;22;13;22;13;22;13;53;11;11;22;13;131;13;40;22;13;22;13;13;13;22;
   13;22;13;22;13;22;13;22;13;22;13;22;13;22;13;22;13;22;13;132;133;134;135;132;13;136;137;138;139;22;13;22;13;22;13;
   22;13;22;13;22;13;22;13;22;13;140;141;142;22;13;22;13;56;56;56;56;56;22;13;56;13;56;13;22;13;22;13;56;56;56;56;56;
   56;56;56;56;56;56;56;56;56;56;56;56;56;56;56;56;56;56;56;52;52;52;22;13;40;52;52;13;40;40;40;40;40];
  [40;40;78;40;40;40;54;40;40;40;40;78;40;40;40;40;40;40;40;40;40;40;40;40;40;40;40;40;40;40;40;40;40;40;40;79;79;78;
   78;79;14;14;14;14;54;56;56;56;18;18;18;18;18;18;14;14;4;14;56;56;56;56;56;56;40;40;40;40;40;40;40;40;40;40;40;40;
   40;40;40;40;40;40;40;40;40;40;40;40;40;40;40;40;40;40;40;40;40;40;40;40;40;40;40;40;40;40;40;40;40;40;40;40;40;40;
   40;40;3;3;3;3;56;56;56;56;56;56;56;56;79;79;40;40;40;40;40;40;40;40;40;40;40;40;40;40;40;40;40;40;40;40;40;40;40;
   40;40;40;40;40;40;40;40;40;40;40;40;40;40;40;40;40;40;40;40;40;40;40;40;40;40;40;79;79;79;79;79;79;79;79;79;79;79;
   79;79;79;79;79;54;78;56;56;56;56;56;56;56;56;3;3;9;9;9;9;9;9;9;9;9;9;56;56;56;56;56;56;54;54;54;54;54;54;54;54;54;
   54;54;54;54;54;54;54;54;54;40;40;40;40;40;40;3;3;3;40;3;40;40;78];
  [9;9;9;9;9;9;9;9;9;9;40;40;40;40;40;40;40;40;40;40;40;40;40;40;40;40;40;40;40;40;40;40;40;40;40;40;40;40;78;78;78;
   78;78;54;54;54;3;3;40;40;40;40;40;40;40;40;40;40;40;40;40;40;40;40;40;40;40;40;40;40;40;78;78;78;78;78;78;78;78;78;
   78;78;79;81;56;56;56;56;56;56;56;56;56;56;56;3;40;40;40;40;40;40;40;40;40;40;40;40;40;40;40;40;40;40;40;40;40;40;
   40;40;40;40;40;40;40;56;56;56;78;78;78;79;40;40;40;40;40;40;40;40;40;40;40;40;40;40;40;40;40;40;40;40;40;40;40;40;
   40;40;40;40;40;40;40;40;40;40;40;40;40;40;40;40;40;40;40;40;40;40;40;54;79;79;78;78;78;78;79;79;78;78;79;79;81;3;3;
   3;3;3;3;3;3;3;3;3;3;3;56;53;9;9;9;9;9;9;9;9;9;9;56;56;56;56;3;3;40;40;40;40;40;78;53;40;40;40;40;40;40;40;40;40;9;
   9;9;9;9;9;9;9;9;9;40;40;40;40;40;56];
  [40;40;40;40;40;40;40;40;40;40;40;40;40;40;40;40;40;40;40;40;40;40;40;40;40;40;40;40;40;40;40;40;40;40;40;40;40;40;
   40;40;40;78;78;78;78;78;78;79;79;78;78;79;79;78;78;56;56;56;56;56;56;56;56;56;40;40;40;78;40;40;40;40;40;40;40;40;
   78;79;56;56;9;9;9;9;9;9;9;9;9;9;56;56;3;3;3;3;40;40;40;40;40;40;40;40;40;40;40;40;40;40;40;40;53;40;40;40;40;40;40;
   14;14;14;40;79;78;79;40;40;40;40;40;40;40;40;40;40;40;40;40;40;40;40;40;40;40;40;40;40;40;40;40;40;40;40;40;40;40;
   40;40;40;40;40;40;40;40;40;40;40;40;40;40;40;40;40;40;40;78;40;78;78;78;40;40;78;78;40;40;40;40;40;78;54;40;54;40;
   56;56;56;56;56;56;56;56;56;56;56;56;56;56;56;56;56;56;56;56;56;56;56;56;40;40;53;3;3;40;40;40;40;40;40;40;40;40;40;
   40;79;78;78;79;79;3;3;40;53;53;79;54;56;56;56;56;56;56;56;56;56];
  [56;40;40;40;40;40;40;56;56;40;40;40;40;40;40;56;56;40;40;40;40;40;40;56;56;56;56;56;56;56;56;56;40;40;40;40;40;40;
   40;56;40;40;40;40;40;40;40;56;13;13;13;13;13;13;13;13;13;13;13;13;13;13;13;13;13;13;13;13;13;13;13;13;13;13;13;13;
   13;13;13;13;13;13;13;13;13;13;13;13;13;13;13;11;52;52;52;52;13;13;13;13;13;13;13;13;13;52;11;11;56;56;56;56;143;
   143;143;143;143;143;143;143;143;143;143;143;143;143;143;143;143;143;143;143;143;143;143;143;143;143;143;143;143;
   143;143;143;143;143;143;143;143;143;143;143;143;143;143;143;143;143;143;143;143;143;143;143;143;143;143;143;143;
   143;143;143;143;143;143;143;143;143;143;143;143;143;143;143;143;143;143;143;143;143;143;143;40;40;40;40;40;40;40;
   40;40;40;40;40;40;40;40;40;40;40;40;40;40;40;40;40;40;40;40;40;40;40;40;40;40;40;40;79;79;78;79;79;78;79;79;3;81;
   54;56;56;9;9;9;9;9;9;9;9;9;9;56;56;56;56;56;56];
  [40;40;40;40;40;40;40;40;40;40;40;40;40;40;40;40;40;40;40;40;40;40;40;40;40;40;40;40;40;40;40;40;40;40;40;40;40;40;
   40;40;40;40;40;40;40;40;40;40;40;40;40;40;40;40;40;40;40;40;40;40;40;40;40;40;40;40;40;40;40;40;40;40;40;40;40;40;
   40;40;40;40;40;40;40;40;40;40;40;40;40;40;40;40;40;40;40;40;40;40;40;40;40;40;40;40;40;40;40;40;40;40;40;40;40;40;
   40;40;40;40;40;40;40;40;40;40;40;40;40;40;40;40;40;40;40;40;40;40;40;40;40;40;40;40;40;40;40;40;40;40;40;40;40;40;
   40;40;40;40;40;40;40;40;40;40;40;40;56;56;56;56;56;56;56;56;56;56;56;56;40;40;40;40;40;40;40;40;40;40;40;40;40;40;
   40;40;40;40;40;40;40;40;40;56;56;56;56;40;40;40;40;40;40;40;40;40;40;40;40;40;40;40;40;40;40;40;40;40;40;40;40;40;
   40;40;40;40;40;40;40;40;40;40;40;40;40;40;40;40;40;40;40;40;40;40;40;40;56;56;56;56];
  [144;144;144;144;144;144;144;144;144;144;144;144;144;144;144;144;144;144;144;144;144;144;144;144;144;144;144;144;
   144;144;144;144;144;144;144;144;144;144;144;144;144;144;144;144;144;144;144;144;144;144;144;144;144;144;144;144;
   144;144;144;144;144;144;144;144;144;144;144;144;144;144;144;144;144;144;144;144;144;144;144;144;144;144;144;144;
   144;144;144;144;144;144;144;144;144;144;144;144;144;144;144;144;144;144;144;144;144;144;144;144;144;144;144;144;
   144;144;144;144;144;144;144;144;144;144;144;144;144;144;144;144;144;144;144;144;144;144;144;144;144;144;144;144;
   144;144;144;144;144;144;144;144;144;144;144;144;144;144;144;144;144;144;144;144;144;144;144;144;144;144;144;144;
   144;144;144;144;144;144;144;144;144;144;144;144;144;144;144;144;144;144;144;144;144;144;144;144;144;144;144;144;
   144;144;144;144;144;144;144;144;144;144;144;144;144;144;144;144;144;144;144;144;144;144;144;144;144;144;144;144;
   144;144;144;144;144;144;144;144;144;144;144;144;144;144;144;144;144;144;144;144;144;144;144;144;144;144;144;144;
   144;144;144;144];
  [145;145;145;145;145;145;145;145;145;145;145;145;145;145;145;145;145;145;145;145;145;145;145;145;145;145;145;145;
   145;145;145;145;145;145;145;145;145;145;145;145;145;145;145;145;145;145;145;145;145;145;145;145;145;145;145;145;
   145;145;145;145;145;145;145;145;145;145;145;145;145;145;145;145;145;145;145;145;145;145;145;145;145;145;145;145;
   145;145;145;145;145;145;145;145;145;145;145;145;145;145;145;145;145;145;145;145;145;145;145;145;145;145;145;145;
   145;145;145;145;145;145;145;145;145;145;145;145;145;145;145;145;145;145;145;145;145;145;145;145;145;145;145;145;
   145;145;145;145;145;145;145;145;145;145;145;145;145;145;145;145;145;145;145;145;145;145;145;145;145;145;145;145;
   145;145;145;145;145;145;145;145;145;145;145;145;145;145;145;145;145;145;145;145;145;145;145;145;145;145;145;145;
   145;145;145;145;145;145;145;145;145;145;145;145;145;145;145;145;145;145;145;145;145;145;145;145;145;145;145;145;
   145;145;145;145;145;145;145;145;145;145;145;145;145;145;145;145;145;145;145;145;145;145;145;145;145;145;145;145;
   145;145;145;145];
  [40;40;40;40;40;40;40;40;40;40;40;40;40;40;40;40;40;40;40;40;40;40;40;40;40;40;40;40;40;40;40;40;40;40;40;40;40;40;
   40;40;40;40;40;40;40;40;40;40;40;40;40;40;40;40;40;40;40;40;40;40;40;40;40;40;40;40;40;40;40;40;40;40;40;40;40;40;
   40;40;40;40;40;40;40;40;40;40;40;40;40;40;40;40;40;40;40;40;40;40;40;40;40;40;40;40;40;40;40;40;40;40;56;56;40;40;
   40;40;40;40;40;40;40;40;40;40;40;40;40;40;40;40;40;40;40;40;40;40;40;40;40;40;40;40;40;40;40;40;40;40;40;40;40;40;
   40;40;40;40;40;40;40;40;40;40;40;40;40;40;40;40;40;40;40;40;40;40;40;40;40;40;40;40;40;40;40;40;40;40;40;40;40;40;
   40;40;40;40;40;40;40;40;40;40;40;40;40;40;40;40;40;40;40;40;40;40;40;40;40;40;40;40;56;56;56;56;56;56;56;56;56;56;
   56;56;56;56;56;56;56;56;56;56;56;56;56;56;56;56;56;56;56;56;56;56;56;56;56;56;56;56];
  [13;13;13;13;13;13;13;56;56;56;56;56;56;56;56;56;56;56;56;13;13;13;13;13;56;56;56;56;56;40;78;40;40;40;40;40;40;40;
   40;40;40;7;40;40;40;40;40;40;40;40;40;40;40;40;40;56;40;40;40;40;40;56;40;56;40;40;56;40;40;56;40;40;40;40;40;40;
   40;40;40;40;40;40;40;40;40;40;40;40;40;40;40;40;40;40;40;40;40;40;40;40;40;40;40;40;40;40;40;40;40;40;40;40;40;40;
   40;40;40;40;40;40;40;40;40;40;40;40;40;40;40;40;40;40;40;40;40;40;40;40;40;40;40;40;40;40;40;40;40;40;40;40;40;40;
   40;40;40;40;40;40;40;40;40;40;40;40;40;40;40;40;40;40;40;40;40;40;40;40;40;40;11;11;11;11;11;11;11;11;11;11;11;11;
   11;11;11;11;11;56;56;56;56;56;56;56;56;56;56;56;56;56;56;56;56;40;40;40;40;40;40;40;40;40;40;40;40;40;40;40;40;40;
   40;40;40;40;40;40;40;40;40;40;40;40;40;40;40;40;40;40;40;40;40;40;40;40;40;40;40;40];
  [40;40;40;40;40;40;40;40;40;40;40;40;40;40;40;40;40;40;40;40;40;40;40;40;40;40;40;40;40;40;40;40;40;40;40;40;40;40;
   40;40;40;40;40;40;40;40;40;40;40;40;40;40;40;40;40;40;40;40;40;40;40;40;40;40;40;40;40;40;40;40;40;40;40;40;40;40;
   40;40;40;40;40;40;40;40;40;40;40;40;40;40;40;40;40;40;146;146;146;146;146;146;40;40;40;40;40;40;40;40;40;40;40;40;
   40;40;40;40;40;40;40;40;40;40;40;40;40;40;40;40;40;40;40;40;40;40;40;40;40;40;40;40;40;40;40;40;40;40;40;40;40;40;
   40;40;40;40;40;40;40;40;40;40;40;40;40;40;40;40;40;40;40;40;40;40;40;40;40;40;40;40;40;40;40;40;40;40;40;40;40;40;
   40;40;40;40;40;40;40;40;40;40;40;40;40;40;40;40;40;40;40;40;40;40;40;40;40;40;40;40;40;40;40;40;40;40;40;40;40;40;
   40;40;40;40;40;40;40;40;40;40;40;40;40;40;40;40;40;40;40;40;40;40;40;40;40;40;40;40;40;40];
  [40;40;40;40;40;40;40;40;40;40;40;40;40;40;40;40;40;40;40;40;40;40;40;40;40;40;40;40;40;40;40;40;40;40;40;40;40;40;
   40;40;40;40;40;40;40;40;40;40;40;40;40;40;40;40;40;40;40;40;40;40;40;40;6;5;14;14;14;14;14;14;14;14;14;14;14;14;14;
   14;14;14;40;40;40;40;40;40;40;40;40;40;40;40;40;40;40;40;40;40;40;40;40;40;40;40;40;40;40;40;40;40;40;40;40;40;40;
   40;40;40;40;40;40;40;40;40;40;40;40;40;40;40;40;40;40;40;40;40;40;40;40;40;40;40;40;40;56;56;40;40;40;40;40;40;40;
   40;40;40;40;40;40;40;40;40;40;40;40;40;40;40;40;40;40;40;40;40;40;40;40;40;40;40;40;40;40;40;40;40;40;40;40;40;40;
   40;40;40;40;40;40;40;40;40;56;56;56;56;56;56;56;14;56;56;56;56;56;56;56;56;56;56;56;56;56;56;56;56;56;56;56;56;56;
   56;56;56;56;56;56;56;56;56;56;56;40;40;40;40;40;40;40;40;40;40;146;146;4;14;14;14];
  [54;54;54;54;54;54;54;54;54;54;54;54;54;54;54;54;3;3;3;3;3;3;3;5;6;3;56;56;56;56;56;56;54;54;54;54;54;54;54;54;54;
   54;54;54;54;54;54;54;3;8;8;12;12;5;6;5;6;5;6;5;6;5;6;5;6;5;6;5;6;3;3;5;6;3;3;3;3;12;12;12;3;3;3;56;3;3;3;3;8;5;6;5;
   6;5;6;3;3;3;7;8;7;7;7;56;3;4;3;3;56;56;56;56;146;40;146;40;146;56;146;40;146;40;146;40;146;40;146;40;40;40;40;40;
   40;40;40;40;40;40;40;40;40;40;40;40;40;40;40;40;40;40;40;40;40;40;40;40;40;40;40;40;40;40;40;40;40;40;40;40;40;40;
   40;40;40;40;40;40;40;40;40;40;40;40;40;40;40;40;40;40;40;40;40;40;40;40;40;40;40;40;40;40;40;40;40;40;40;40;40;40;
   40;40;40;40;40;40;40;40;40;40;40;40;40;40;40;40;40;40;40;40;40;40;40;40;40;40;40;40;40;40;40;40;40;40;40;40;40;40;
   40;40;40;40;40;40;40;56;56;17];
  [56;3;3;3;4;3;3;3;5;6;3;7;3;8;3;3;9;9;9;9;9;9;9;9;9;9;3;3;7;7;7;3;3;10;10;10;10;10;10;10;10;10;10;10;10;10;10;10;10;
   10;10;10;10;10;10;10;10;10;10;5;3;6;11;12;11;13;13;13;13;13;13;13;13;13;13;13;13;13;13;13;13;13;13;13;13;13;13;13;
   13;13;13;5;7;6;7;5;6;3;5;6;3;3;40;40;40;40;40;40;40;40;40;40;53;40;40;40;40;40;40;40;40;40;40;40;40;40;40;40;40;40;
   40;40;40;40;40;40;40;40;40;40;40;40;40;40;40;40;40;40;40;40;40;40;40;40;40;40;40;40;147;147;40;40;40;40;40;40;40;
   40;40;40;40;40;40;40;40;40;40;40;40;40;40;40;40;40;40;40;40;40;40;40;40;56;56;56;40;40;40;40;40;40;56;56;40;40;40;
   40;40;40;56;56;40;40;40;40;40;40;56;56;40;40;40;56;56;56;4;4;7;11;14;4;4;56;14;7;7;7;7;14;14;56;56;56;56;56;56;56;
   56;56;56;17;17;17;14;14;56;56];
  [40;40;40;40;40;40;40;40;40;40;40;40;56;40;40;40;40;40;40;40;40;40;40;40;40;40;40;40;40;40;40;40;40;40;40;40;40;40;
   40;56;40;40;40;40;40;40;40;40;40;40;40;40;40;40;40;40;40;40;40;56;40;40;56;40;40;40;40;40;40;40;40;40;40;40;40;40;
   40;40;56;56;40;40;40;40;40;40;40;40;40;40;40;40;40;40;56;56;56;56;56;56;56;56;56;56;56;56;56;56;56;56;56;56;56;56;
   56;56;56;56;56;56;56;56;56;56;56;56;56;56;40;40;40;40;40;40;40;40;40;40;40;40;40;40;40;40;40;40;40;40;40;40;40;40;
   40;40;40;40;40;40;40;40;40;40;40;40;40;40;40;40;40;40;40;40;40;40;40;40;40;40;40;40;40;40;40;40;40;40;40;40;40;40;
   40;40;40;40;40;40;40;40;40;40;40;40;40;40;40;40;40;40;40;40;40;40;40;40;40;40;40;40;40;40;40;40;40;40;40;40;40;40;
   40;40;40;40;40;40;40;40;40;40;40;40;40;40;40;40;40;40;40;40;40;40;40;56;56;56;56;56];
  [3;3;3;56;56;56;56;18;18;18;18;18;18;18;18;18;18;18;18;18;18;18;18;18;18;18;18;18;18;18;18;18;18;18;18;18;18;18;18;
   18;18;18;18;18;18;18;18;18;18;18;18;18;56;56;56;14;14;14;14;14;14;14;14;14;85;85;85;85;85;85;85;85;85;85;85;85;85;
   85;85;85;85;85;85;85;85;85;85;85;85;85;85;85;85;85;85;85;85;85;85;85;85;85;85;85;85;85;85;85;85;85;85;85;85;85;85;
   85;85;18;18;18;18;14;14;14;14;14;14;14;14;14;14;14;14;14;14;14;14;14;18;18;14;14;14;56;14;14;14;14;14;14;14;14;14;
   14;14;14;14;56;56;56;14;56;56;56;56;56;56;56;56;56;56;56;56;56;56;56;56;56;56;56;56;56;56;56;56;56;56;56;56;56;56;
   56;56;56;56;56;56;56;56;56;56;56;56;56;56;56;56;56;14;14;14;14;14;14;14;14;14;14;14;14;14;14;14;14;14;14;14;14;14;
   14;14;14;14;14;14;14;14;14;14;14;14;14;14;14;14;14;14;14;14;14;14;14;14;54;56;56];
  [56;56;56;56;56;56;56;56;56;56;56;56;56;56;56;56;56;56;56;56;56;56;56;56;56;56;56;56;56;56;56;56;56;56;56;56;56;56;
   56;56;56;56;56;56;56;56;56;56;56;56;56;56;56;56;56;56;56;56;56;56;56;56;56;56;56;56;56;56;56;56;56;56;56;56;56;56;
   56;56;56;56;56;56;56;56;56;56;56;56;56;56;56;56;56;56;56;56;56;56;56;56;56;56;56;56;56;56;56;56;56;56;56;56;56;56;
   56;56;56;56;56;56;56;56;56;56;56;56;56;56;40;40;40;40;40;40;40;40;40;40;40;40;40;40;40;40;40;40;40;40;40;40;40;40;
   40;40;40;40;40;56;56;56;40;40;40;40;40;40;40;40;40;40;40;40;40;40;40;40;40;40;40;40;40;40;40;40;40;40;40;40;40;40;
   40;40;40;40;40;40;40;40;40;40;40;40;40;40;40;40;40;40;40;56;56;56;56;56;56;56;56;56;56;56;56;56;56;56;54;18;18;18;
   18;18;18;18;18;18;18;18;18;18;18;18;18;18;18;18;18;18;18;18;18;18;18;18;56;56;56;56];
  [40;40;40;40;40;40;40;40;40;40;40;40;40;40;40;40;40;40;40;40;40;40;40;40;40;40;40;40;40;40;40;40;18;18;18;18;56;56;
   56;56;56;56;56;56;56;40;40;40;40;40;40;40;40;40;40;40;40;40;40;40;40;40;40;40;40;85;40;40;40;40;40;40;40;40;85;56;
   56;56;56;56;40;40;40;40;40;40;40;40;40;40;40;40;40;40;40;40;40;40;40;40;40;40;40;40;40;40;40;40;40;40;40;40;40;40;
   40;40;40;40;78;78;78;78;78;56;56;56;56;56;40;40;40;40;40;40;40;40;40;40;40;40;40;40;40;40;40;40;40;40;40;40;40;40;
   40;40;40;40;40;40;56;3;40;40;40;40;40;40;40;40;40;40;40;40;40;40;40;40;40;40;40;40;40;40;40;40;40;40;40;40;40;40;
   40;40;40;40;40;40;56;56;56;56;40;40;40;40;40;40;40;40;3;85;85;85;85;85;56;56;56;56;56;56;56;56;56;56;56;56;56;56;
   56;56;56;56;56;56;56;56;56;56;56;56;56;56;56;56;56;56;56;56;56;56;56;56;56;56;56;56];
  [148;148;148;148;148;148;148;148;148;148;148;148;148;148;148;148;148;148;148;148;148;148;148;148;148;148;148;148;
   148;148;148;148;148;148;148;148;148;148;148;148;13;13;13;13;13;13;13;13;13;13;13;13;13;13;13;13;13;13;13;13;13;13;
   13;13;13;13;13;13;13;13;13;13;13;13;13;13;13;13;13;13;40;40;40;40;40;40;40;40;40;40;40;40;40;40;40;40;40;40;40;40;
   40;40;40;40;40;40;40;40;40;40;40;40;40;40;40;40;40;40;40;40;40;40;40;40;40;40;40;40;40;40;40;40;40;40;40;40;40;40;
   40;40;40;40;40;40;40;40;40;40;40;40;40;40;40;40;40;40;40;40;56;56;9;9;9;9;9;9;9;9;9;9;56;56;56;56;56;56;148;148;
   148;148;148;148;148;148;148;148;148;148;148;148;148;148;148;148;148;148;148;148;148;148;148;148;148;148;148;148;
   148;148;148;148;148;148;56;56;56;56;13;13;13;13;13;13;13;13;13;13;13;13;13;13;13;13;13;13;13;13;13;13;13;13;13;13;
   13;13;13;13;13;13;13;13;13;13;56;56;56;56];
  [40;40;40;40;40;40;40;40;40;40;40;40;40;40;40;40;40;40;40;40;40;40;40;40;40;40;40;40;40;40;40;40;40;40;40;40;40;40;
   40;40;56;56;56;56;56;56;56;56;40;40;40;40;40;40;40;40;40;40;40;40;40;40;40;40;40;40;40;40;40;40;40;40;40;40;40;40;
   40;40;40;40;40;40;40;40;40;40;40;40;40;40;40;40;40;40;40;40;40;40;40;40;56;56;56;56;56;56;56;56;56;56;56;3;149;149;
   149;149;149;149;149;149;149;149;149;56;149;149;149;149;149;149;149;149;149;149;149;149;149;149;149;56;149;149;149;
   149;149;149;149;56;149;149;56;13;13;13;13;13;13;13;13;13;13;13;56;13;13;13;13;13;13;13;13;13;13;13;13;13;13;13;56;
   13;13;13;13;13;13;13;56;13;13;56;56;56;56;56;56;56;56;56;56;56;56;56;56;56;56;56;56;56;56;56;56;56;56;56;56;56;56;
   56;56;56;56;56;56;56;56;56;56;56;56;56;56;56;56;56;56;56;56;56;56;56;56;56;56;56;56;56;56;56;56;56;56;56;56;56;56;
   56];
  [40;40;40;40;40;40;40;40;40;40;40;40;40;40;40;40;40;40;40;40;40;40;40;40;40;40;40;40;40;40;40;40;40;40;40;40;40;40;
   40;40;40;40;40;40;40;40;40;40;40;40;40;40;40;40;40;56;56;56;56;56;56;56;56;56;40;40;40;40;40;40;40;40;40;40;40;40;
   40;40;40;40;40;40;40;40;40;40;56;56;56;56;56;56;56;56;56;56;40;40;40;40;40;40;40;40;56;56;56;56;56;56;56;56;56;56;
   56;56;56;56;56;56;56;56;56;56;56;56;56;56;52;53;53;52;52;52;56;52;52;52;52;52;52;52;52;52;52;52;52;52;52;52;52;52;
   52;52;52;52;52;52;52;52;52;52;52;52;52;52;52;52;52;52;52;52;52;52;52;52;52;56;52;52;52;52;52;52;52;52;52;56;56;56;
   56;56;56;56;56;56;56;56;56;56;56;56;56;56;56;56;56;56;56;56;56;56;56;56;56;56;56;56;56;56;56;56;56;56;56;56;56;56;
   56;56;56;56;56;56;56;56;56;56;56;56;56;56;56;56;56;56;56;56;56;56;56;56;56;56;56;56];
  [40;40;40;40;40;40;56;56;40;56;40;40;40;40;40;40;40;40;40;40;40;40;40;40;40;40;40;40;40;40;40;40;40;40;40;40;40;40;
   40;40;40;40;40;40;40;40;40;40;40;40;40;40;40;40;56;40;40;56;56;56;40;56;56;40;40;40;40;40;40;40;40;40;40;40;40;40;
   40;40;40;40;40;40;40;40;40;40;56;3;18;18;18;18;18;18;18;18;40;40;40;40;40;40;40;40;40;40;40;40;40;40;40;40;40;40;
   40;40;40;40;40;14;14;18;18;18;18;18;18;18;40;40;40;40;40;40;40;40;40;40;40;40;40;40;40;40;40;40;40;40;40;40;40;40;
   40;40;40;40;40;40;40;56;56;56;56;56;56;56;56;18;18;18;18;18;18;18;18;18;56;56;56;56;56;56;56;56;56;56;56;56;56;56;
   56;56;56;56;56;56;56;56;56;56;56;56;56;56;56;56;56;56;56;56;56;56;56;56;56;56;56;56;56;56;56;56;56;56;40;40;40;40;
   40;40;40;40;40;40;40;40;40;40;40;40;40;40;40;56;40;40;56;56;56;56;56;18;18;18;18;18];
  [40;40;40;40;40;40;40;40;40;40;40;40;40;40;40;40;40;40;40;40;40;40;18;18;18;18;18;18;56;56;56;3;40;40;40;40;40;40;
   40;40;40;40;40;40;40;40;40;40;40;40;40;40;40;40;40;40;40;40;56;56;56;56;56;3;56;56;56;56;56;56;56;56;56;56;56;56;
   56;56;56;56;56;56;56;56;56;56;56;56;56;56;56;56;56;56;56;56;56;56;56;56;56;56;56;56;56;56;56;56;56;56;56;56;56;56;
   56;56;56;56;56;56;56;56;56;56;56;56;56;56;40;40;40;40;40;40;40;40;40;40;40;40;40;40;40;40;40;40;40;40;40;40;40;40;
   40;40;40;40;40;40;40;40;40;40;40;40;40;40;40;40;40;40;40;40;40;40;40;40;40;40;40;40;40;40;40;40;56;56;56;56;18;18;
   40;40;18;18;18;18;18;18;18;18;18;18;18;18;18;18;18;18;56;56;18;18;18;18;18;18;18;18;18;18;18;18;18;18;18;18;18;18;
   18;18;18;18;18;18;18;18;18;18;18;18;18;18;18;18;18;18;18;18;18;18;18;18;18;18;18;18];
  [40;78;78;78;56;78;78;56;56;56;56;56;78;78;78;78;40;40;40;40;56;40;40;40;56;40;40;40;40;40;40;40;40;40;40;40;40;40;
   40;40;40;40;40;40;40;40;40;40;40;40;40;40;40;40;56;56;54;54;54;56;56;56;56;54;18;18;18;18;18;18;18;18;18;56;56;56;
   56;56;56;56;3;3;3;3;3;3;3;3;3;56;56;56;56;56;56;56;40;40;40;40;40;40;40;40;40;40;40;40;40;40;40;40;40;40;40;40;40;
   40;40;40;40;40;40;40;40;18;18;3;40;40;40;40;40;40;40;40;40;40;40;40;40;40;40;40;40;40;40;40;40;40;40;40;40;40;40;
   40;40;18;18;18;56;56;56;56;56;56;56;56;56;56;56;56;56;56;56;56;56;56;56;56;56;56;56;56;56;56;56;56;56;56;56;56;40;
   40;40;40;40;40;40;40;14;40;40;40;40;40;40;40;40;40;40;40;40;40;40;40;40;40;40;40;40;40;40;40;40;40;40;40;40;54;54;
   56;56;56;56;18;18;18;18;18;3;3;3;3;3;3;3;56;56;56;56;56;56;56;56;56];
  [40;40;40;40;40;40;40;40;40;40;40;40;40;40;40;40;40;40;40;40;40;40;40;40;40;40;40;40;40;40;40;40;40;40;40;40;40;40;
   40;40;40;40;40;40;40;40;40;40;40;40;40;40;40;40;56;56;56;3;3;3;3;3;3;3;40;40;40;40;40;40;40;40;40;40;40;40;40;40;
   40;40;40;40;40;40;40;40;56;56;18;18;18;18;18;18;18;18;40;40;40;40;40;40;40;40;40;40;40;40;40;40;40;40;40;40;40;56;
   56;56;56;56;18;18;18;18;18;18;18;18;40;40;40;40;40;40;40;40;40;40;40;40;40;40;40;40;40;40;56;56;56;56;56;56;56;3;3;
   3;3;56;56;56;56;56;56;56;56;56;56;56;56;18;18;18;18;18;18;18;56;56;56;56;56;56;56;56;56;56;56;56;56;56;56;56;56;56;
   56;56;56;56;56;56;56;56;56;56;56;56;56;56;56;56;56;56;56;56;56;56;56;56;56;56;56;56;56;56;56;56;56;56;56;56;56;56;
   56;56;56;56;56;56;56;56;56;56;56;56;56;56;56;56;56;56;56;56;56;56;56;56];
  [40;40;40;40;40;40;40;40;40;40;40;40;40;40;40;40;40;40;40;40;40;40;40;40;40;40;40;40;40;40;40;40;40;40;40;40;40;40;
   40;40;40;40;40;40;40;40;40;40;40;40;40;40;40;40;40;40;40;40;40;40;40;40;40;40;40;40;40;40;40;40;40;40;40;56;56;56;
   56;56;56;56;56;56;56;56;56;56;56;56;56;56;56;56;56;56;56;56;56;56;56;56;56;56;56;56;56;56;56;56;56;56;56;56;56;56;
   56;56;56;56;56;56;56;56;56;56;56;56;56;56;61;61;61;61;61;61;61;61;61;61;61;61;61;61;61;61;61;61;61;61;61;61;61;61;
   61;61;61;61;61;61;61;61;61;61;61;61;61;61;61;61;61;61;61;61;61;61;61;61;61;61;61;56;56;56;56;56;56;56;56;56;56;56;
   56;56;13;13;13;13;13;13;13;13;13;13;13;13;13;13;13;13;13;13;13;13;13;13;13;13;13;13;13;13;13;13;13;13;13;13;13;13;
   13;13;13;13;13;13;13;13;13;13;13;13;13;13;13;56;56;56;56;56;56;56;18;18;18;18;18;18];
  [40;40;40;40;40;40;40;40;40;40;40;40;40;40;40;40;40;40;40;40;40;40;40;40;40;40;40;40;40;40;40;40;40;40;40;40;78;78;
   78;78;56;56;56;56;56;56;56;56;9;9;9;9;9;9;9;9;9;9;56;56;56;56;56;56;56;56;56;56;56;56;56;56;56;56;56;56;56;56;56;
   56;56;56;56;56;56;56;56;56;56;56;56;56;56;56;56;56;56;56;56;56;56;56;56;56;56;56;56;56;56;56;56;56;56;56;56;56;56;
   56;56;56;56;56;56;56;56;56;56;56;56;56;56;56;56;56;56;56;56;56;56;56;56;56;56;56;56;56;56;56;56;56;56;56;56;56;56;
   56;56;56;56;56;56;56;56;56;56;56;56;56;56;56;56;56;56;56;56;56;56;56;56;56;56;56;56;56;56;56;56;56;56;56;56;56;56;
   56;56;56;56;56;56;56;56;56;56;56;56;56;56;56;56;56;56;56;56;56;56;56;56;56;56;56;56;56;56;56;56;56;56;56;56;56;56;
   56;56;56;56;56;56;56;56;56;56;56;56;56;56;56;56;56;56;56;56;56;56;56;56;56];
  [56;56;56;56;56;56;56;56;56;56;56;56;56;56;56;56;56;56;56;56;56;56;56;56;56;56;56;56;56;56;56;56;56;56;56;56;56;56;
   56;56;56;56;56;56;56;56;56;56;56;56;56;56;56;56;56;56;56;56;56;56;56;56;56;56;56;56;56;56;56;56;56;56;56;56;56;56;
   56;56;56;56;56;56;56;56;56;56;56;56;56;56;56;56;56;56;56;56;18;18;18;18;18;18;18;18;18;18;18;18;18;18;18;18;18;18;
   18;18;18;18;18;18;18;18;18;18;18;18;18;56;40;40;40;40;40;40;40;40;40;40;40;40;40;40;40;40;40;40;40;40;40;40;40;40;
   40;40;40;40;40;40;40;40;40;40;40;40;40;40;40;40;40;40;56;78;78;8;56;56;40;40;56;56;56;56;56;56;56;56;56;56;56;56;
   56;56;56;56;56;56;56;56;56;56;56;56;56;56;56;56;56;56;56;56;56;56;56;56;56;56;56;56;56;56;56;56;56;56;56;56;56;56;
   56;56;56;56;56;56;56;56;56;56;56;56;56;56;56;56;56;56;56;56;56;56;56;56;56;54;54;54];
  [40;40;40;40;40;40;40;40;40;40;40;40;40;40;40;40;40;40;40;40;40;40;40;40;40;40;40;40;40;18;18;18;18;18;18;18;18;18;
   18;40;56;56;56;56;56;56;56;56;40;40;40;40;40;40;40;40;40;40;40;40;40;40;40;40;40;40;40;40;40;40;54;54;54;54;54;54;
   54;54;54;54;54;18;18;18;18;3;3;3;3;3;56;56;56;56;56;56;56;56;56;56;56;56;56;56;56;56;56;56;56;56;56;56;40;40;40;40;
   40;40;40;40;40;40;40;40;40;40;40;40;40;40;54;54;54;54;3;3;3;3;56;56;56;56;56;56;56;56;56;56;56;56;56;56;56;56;56;
   56;56;56;56;56;56;56;56;56;56;56;56;56;56;56;56;56;56;56;56;56;40;40;40;40;40;40;40;40;40;40;40;40;40;40;40;40;40;
   40;40;40;40;18;18;18;18;18;18;18;56;56;56;56;56;56;56;56;56;56;56;56;56;56;56;56;56;56;56;56;40;40;40;40;40;40;40;
   40;40;40;40;40;40;40;40;40;40;40;40;40;40;40;40;56;56;56;56;56;56;56;56;56];
  [79;78;79;40;40;40;40;40;40;40;40;40;40;40;40;40;40;40;40;40;40;40;40;40;40;40;40;40;40;40;40;40;40;40;40;40;40;40;
   40;40;40;40;40;40;40;40;40;40;40;40;40;40;40;40;40;40;78;78;78;78;78;78;78;78;78;78;78;78;78;78;54;3;3;3;3;3;3;3;
   56;56;56;56;18;18;18;18;18;18;18;18;18;18;18;18;18;18;18;18;18;18;18;18;9;9;9;9;9;9;9;9;9;9;54;40;40;78;78;40;56;
   56;56;56;56;56;56;56;56;54;78;78;79;40;40;40;40;40;40;40;40;40;40;40;40;40;40;40;40;40;40;40;40;40;40;40;40;40;40;
   40;40;40;40;40;40;40;40;40;40;40;40;40;40;40;40;40;40;40;79;79;79;78;78;78;78;79;79;54;54;3;3;17;3;3;3;3;78;56;56;
   56;56;56;56;56;56;56;56;17;56;56;40;40;40;40;40;40;40;40;40;40;40;40;40;40;40;40;40;40;40;40;40;40;40;40;40;56;56;
   56;56;56;56;56;9;9;9;9;9;9;9;9;9;9;56;56;56;56;56;56];
  [78;78;78;40;40;40;40;40;40;40;40;40;40;40;40;40;40;40;40;40;40;40;40;40;40;40;40;40;40;40;40;40;40;40;40;40;40;40;
   40;78;78;78;78;78;79;78;78;78;78;78;78;54;54;56;9;9;9;9;9;9;9;9;9;9;3;3;3;3;40;79;79;40;56;56;56;56;56;56;56;56;40;
   40;40;40;40;40;40;40;40;40;40;40;40;40;40;40;40;40;40;40;40;40;40;40;40;40;40;40;40;40;40;40;40;40;40;54;3;3;40;56;
   56;56;56;56;56;56;56;56;78;78;79;40;40;40;40;40;40;40;40;40;40;40;40;40;40;40;40;40;40;40;40;40;40;40;40;40;40;40;
   40;40;40;40;40;40;40;40;40;40;40;40;40;40;40;40;40;40;40;40;40;79;79;79;78;78;78;78;78;78;78;78;78;79;81;40;40;40;
   40;3;3;3;3;54;54;54;54;3;79;78;9;9;9;9;9;9;9;9;9;9;40;3;40;3;3;3;56;18;18;18;18;18;18;18;18;18;18;18;18;18;18;18;
   18;18;18;18;18;56;56;56;56;56;56;56;56;56;56;56];
  [40;40;40;40;40;40;40;40;40;40;40;40;40;40;40;40;40;40;56;40;40;40;40;40;40;40;40;40;40;40;40;40;40;40;40;40;40;40;
   40;40;40;40;40;40;79;79;79;78;78;78;79;79;78;81;54;78;3;3;3;3;3;3;78;40;40;78;56;56;56;56;56;56;56;56;56;56;56;56;
   56;56;56;56;56;56;56;56;56;56;56;56;56;56;56;56;56;56;56;56;56;56;56;56;56;56;56;56;56;56;56;56;56;56;56;56;56;56;
   56;56;56;56;56;56;56;56;56;56;56;56;40;40;40;40;40;40;40;56;40;56;40;40;40;40;56;40;40;40;40;40;40;40;40;40;40;40;
   40;40;40;40;56;40;40;40;40;40;40;40;40;40;40;3;56;56;56;56;56;56;40;40;40;40;40;40;40;40;40;40;40;40;40;40;40;40;
   40;40;40;40;40;40;40;40;40;40;40;40;40;40;40;40;40;40;40;40;40;40;40;40;40;40;40;40;40;40;40;78;79;79;79;78;78;78;
   78;78;78;54;54;56;56;56;56;56;9;9;9;9;9;9;9;9;9;9;56;56;56;56;56;56];
  [78;78;79;79;56;40;40;40;40;40;40;40;40;56;56;40;40;56;56;40;40;40;40;40;40;40;40;40;40;40;40;40;40;40;40;40;40;40;
   40;40;40;56;40;40;40;40;40;40;40;56;40;40;56;40;40;40;40;40;56;54;54;40;79;79;78;79;79;79;79;56;56;79;79;56;56;79;
   79;81;56;56;40;56;56;56;56;56;56;79;56;56;56;56;56;40;40;40;40;40;79;79;56;56;54;54;54;54;54;54;54;56;56;56;54;54;
   54;54;54;56;56;56;56;56;56;56;56;56;56;56;56;56;56;56;56;56;56;56;56;56;56;56;56;56;56;56;56;56;56;56;56;56;56;56;
   56;56;56;56;56;56;56;56;56;56;56;56;56;56;56;56;56;56;56;56;56;56;56;56;56;56;56;56;56;56;56;56;56;56;56;56;56;56;
   56;56;56;56;56;56;56;56;56;56;56;56;56;56;56;56;56;56;56;56;56;56;56;56;56;56;56;56;56;56;56;56;56;56;56;56;56;56;
   56;56;56;56;56;56;56;56;56;56;56;56;56;56;56;56;56;56;56;56;56;56;56;56;56;56;56;56];
  [40;40;40;40;40;40;40;40;40;40;40;40;40;40;40;40;40;40;40;40;40;40;40;40;40;40;40;40;40;40;40;40;40;40;40;40;40;40;
   40;40;40;40;40;40;40;40;40;40;40;40;40;40;40;79;79;79;78;78;78;78;78;78;78;78;79;79;54;78;78;79;54;40;40;40;40;3;3;
   3;3;3;9;9;9;9;9;9;9;9;9;9;3;3;56;3;54;40;40;40;56;56;56;56;56;56;56;56;56;56;56;56;56;56;56;56;56;56;56;56;56;56;
   56;56;56;56;56;56;56;56;40;40;40;40;40;40;40;40;40;40;40;40;40;40;40;40;40;40;40;40;40;40;40;40;40;40;40;40;40;40;
   40;40;40;40;40;40;40;40;40;40;40;40;40;40;40;40;40;40;79;79;79;78;78;78;78;78;78;79;78;79;79;79;79;78;78;79;54;54;
   40;40;3;40;56;56;56;56;56;56;56;56;9;9;9;9;9;9;9;9;9;9;56;56;56;56;56;56;56;56;56;56;56;56;56;56;56;56;56;56;56;56;
   56;56;56;56;56;56;56;56;56;56;56;56;56;56;56;56;56;56];
  [56;56;56;56;56;56;56;56;56;56;56;56;56;56;56;56;56;56;56;56;56;56;56;56;56;56;56;56;56;56;56;56;56;56;56;56;56;56;
   56;56;56;56;56;56;56;56;56;56;56;56;56;56;56;56;56;56;56;56;56;56;56;56;56;56;56;56;56;56;56;56;56;56;56;56;56;56;
   56;56;56;56;56;56;56;56;56;56;56;56;56;56;56;56;56;56;56;56;56;56;56;56;56;56;56;56;56;56;56;56;56;56;56;56;56;56;
   56;56;56;56;56;56;56;56;56;56;56;56;56;56;40;40;40;40;40;40;40;40;40;40;40;40;40;40;40;40;40;40;40;40;40;40;40;40;
   40;40;40;40;40;40;40;40;40;40;40;40;40;40;40;40;40;40;40;40;40;40;40;79;79;79;78;78;78;78;56;56;79;79;79;79;78;78;
   79;54;54;3;3;3;3;3;3;3;3;3;3;3;3;3;3;3;3;3;3;3;3;3;3;3;40;40;40;40;78;78;56;56;56;56;56;56;56;56;56;56;56;56;56;56;
   56;56;56;56;56;56;56;56;56;56;56;56;56;56;56;56;56;56;56;56];
  [40;40;40;40;40;40;40;40;40;40;40;40;40;40;40;40;40;40;40;40;40;40;40;40;40;40;40;40;40;40;40;40;40;40;40;40;40;40;
   40;40;40;40;40;40;40;40;40;40;79;79;79;78;78;78;78;78;78;78;78;79;79;78;79;54;78;3;3;3;40;56;56;56;56;56;56;56;56;
   56;56;56;9;9;9;9;9;9;9;9;9;9;56;56;56;56;56;56;3;3;3;3;3;3;3;3;3;3;3;3;3;56;56;56;56;56;56;56;56;56;56;56;56;56;56;
   56;56;56;56;56;40;40;40;40;40;40;40;40;40;40;40;40;40;40;40;40;40;40;40;40;40;40;40;40;40;40;40;40;40;40;40;40;40;
   40;40;40;40;40;40;40;40;40;40;78;79;78;79;79;78;78;78;78;78;78;81;54;40;3;56;56;56;56;56;56;9;9;9;9;9;9;9;9;9;9;56;
   56;56;56;56;56;56;56;56;56;56;56;56;56;56;56;56;56;56;56;56;56;56;56;56;56;56;56;56;56;56;56;56;56;56;56;56;56;56;
   56;56;56;56;56;56;56;56;56;56;56;56;56;56;56];
  [40;40;40;40;40;40;40;40;40;40;40;40;40;40;40;40;40;40;40;40;40;40;40;40;40;40;40;56;56;78;78;78;79;79;78;78;78;78;
   79;78;78;78;78;54;56;56;56;56;9;9;9;9;9;9;9;9;9;9;18;18;3;3;3;14;40;40;40;40;40;40;40;56;56;56;56;56;56;56;56;56;
   56;56;56;56;56;56;56;56;56;56;56;56;56;56;56;56;56;56;56;56;56;56;56;56;56;56;56;56;56;56;56;56;56;56;56;56;56;56;
   56;56;56;56;56;56;56;56;56;56;56;56;56;56;56;56;56;56;56;56;56;56;56;56;56;56;56;56;56;56;56;56;56;56;56;56;56;56;
   56;56;56;56;56;56;56;56;56;56;56;56;56;56;56;56;56;56;56;56;56;56;56;56;56;56;56;56;56;56;56;56;56;56;56;56;56;56;
   56;56;56;56;56;56;56;56;56;56;56;56;56;56;56;56;56;56;56;56;56;56;56;56;56;56;56;56;56;56;56;56;56;56;56;56;56;56;
   56;56;56;56;56;56;56;56;56;56;56;56;56;56;56;56;56;56;56;56;56;56;56;56];
  [40;40;40;40;40;40;40;40;40;40;40;40;40;40;40;40;40;40;40;40;40;40;40;40;40;40;40;40;40;40;40;40;40;40;40;40;40;40;
   40;40;40;40;40;40;79;79;79;78;78;78;78;78;78;78;78;78;79;54;54;3;56;56;56;56;56;56;56;56;56;56;56;56;56;56;56;56;
   56;56;56;56;56;56;56;56;56;56;56;56;56;56;56;56;56;56;56;56;56;56;56;56;56;56;56;56;56;56;56;56;56;56;56;56;56;56;
   56;56;56;56;56;56;56;56;56;56;56;56;56;56;56;56;56;56;56;56;56;56;56;56;56;56;56;56;56;56;56;56;56;56;56;56;56;56;
   56;56;56;56;56;56;56;56;10;10;10;10;10;10;10;10;10;10;10;10;10;10;10;10;10;10;10;10;10;10;10;10;10;10;10;10;10;10;
   10;10;13;13;13;13;13;13;13;13;13;13;13;13;13;13;13;13;13;13;13;13;13;13;13;13;13;13;13;13;13;13;13;13;9;9;9;9;9;9;
   9;9;9;9;18;18;18;18;18;18;18;18;18;56;56;56;56;56;56;56;56;56;56;56;56;40];
  [40;40;40;40;40;40;40;56;56;40;56;56;40;40;40;40;40;40;40;40;56;40;40;56;40;40;40;40;40;40;40;40;40;40;40;40;40;40;
   40;40;40;40;40;40;40;40;40;40;79;79;79;79;79;79;56;79;79;56;56;78;78;81;54;40;79;40;79;54;3;3;3;56;56;56;56;56;56;
   56;56;56;9;9;9;9;9;9;9;9;9;9;56;56;56;56;56;56;56;56;56;56;56;56;56;56;56;56;56;56;56;56;56;56;56;56;56;56;56;56;
   56;56;56;56;56;56;56;56;56;56;56;56;56;56;56;56;56;56;56;56;56;56;56;56;56;56;56;56;56;56;56;56;56;56;56;56;56;56;
   56;56;56;56;40;40;40;40;40;40;40;40;56;56;40;40;40;40;40;40;40;40;40;40;40;40;40;40;40;40;40;40;40;40;40;40;40;40;
   40;40;40;40;40;40;40;40;40;40;40;40;40;40;40;79;79;79;78;78;78;78;56;56;78;78;79;79;79;79;54;40;3;40;79;56;56;56;
   56;56;56;56;56;56;56;56;56;56;56;56;56;56;56;56;56;56;56;56;56;56;56;56];
  [40;78;78;78;78;78;78;78;78;78;78;40;40;40;40;40;40;40;40;40;40;40;40;40;40;40;40;40;40;40;40;40;40;40;40;40;40;40;
   40;40;40;40;40;40;40;40;40;40;40;40;40;54;54;78;78;78;78;79;40;78;78;78;78;3;3;3;3;3;3;3;3;54;56;56;56;56;56;56;56;
   56;40;78;78;78;78;78;78;79;79;78;78;78;40;40;40;40;40;40;40;40;40;40;40;40;40;40;40;40;40;40;40;40;40;40;40;40;40;
   40;40;40;40;40;40;40;40;40;40;40;40;40;40;40;40;40;40;40;40;40;78;78;78;78;78;78;78;78;78;78;78;78;78;79;54;54;3;3;
   3;40;3;3;3;3;3;56;56;56;56;56;56;56;56;56;56;56;56;56;40;40;40;40;40;40;40;40;40;40;40;40;40;40;40;40;40;40;40;40;
   40;40;40;40;40;40;40;40;40;40;40;40;40;40;40;40;40;40;40;40;40;40;40;40;40;40;40;40;40;40;40;40;40;40;40;40;40;40;
   40;40;40;40;40;40;40;40;40;40;40;40;40;40;40;56;56;56;56;56;56;56];
  [3;3;3;3;3;3;3;3;3;3;56;56;56;56;56;56;56;56;56;56;56;56;56;56;56;56;56;56;56;56;56;56;56;56;56;56;56;56;56;56;56;
   56;56;56;56;56;56;56;56;56;56;56;56;56;56;56;56;56;56;56;56;56;56;56;56;56;56;56;56;56;56;56;56;56;56;56;56;56;56;
   56;56;56;56;56;56;56;56;56;56;56;56;56;56;56;56;56;56;56;56;56;56;56;56;56;56;56;56;56;56;56;56;56;56;56;56;56;56;
   56;56;56;56;56;56;56;56;56;56;56;56;56;56;56;56;56;56;56;56;56;56;56;56;56;56;56;56;56;56;56;56;56;56;56;56;56;56;
   56;56;56;56;56;56;56;56;56;56;56;56;56;56;56;56;56;56;56;56;56;56;56;56;56;56;56;56;56;56;56;56;56;56;56;56;56;56;
   56;56;56;56;56;56;56;56;56;56;56;56;56;56;56;56;56;56;56;56;56;56;56;56;56;56;56;56;56;56;56;56;56;56;56;56;56;56;
   56;56;56;56;56;56;56;56;56;56;56;56;56;56;56;56;56;56;56;56;56;56;56;56;56];
  [40;40;40;40;40;40;40;40;40;56;40;40;40;40;40;40;40;40;40;40;40;40;40;40;40;40;40;40;40;40;40;40;40;40;40;40;40;40;
   40;40;40;40;40;40;40;40;40;79;78;78;78;78;78;78;78;56;78;78;78;78;78;78;79;54;40;3;3;3;3;3;56;56;56;56;56;56;56;56;
   56;56;9;9;9;9;9;9;9;9;9;9;18;18;18;18;18;18;18;18;18;18;18;18;18;18;18;18;18;18;18;56;56;56;3;3;40;40;40;40;40;40;
   40;40;40;40;40;40;40;40;40;40;40;40;40;40;40;40;40;40;40;40;40;40;40;40;56;56;78;78;78;78;78;78;78;78;78;78;78;78;
   78;78;78;78;78;78;78;78;78;78;56;79;78;78;78;78;78;78;78;79;78;78;79;78;78;56;56;56;56;56;56;56;56;56;56;56;56;56;
   56;56;56;56;56;56;56;56;56;56;56;56;56;56;56;56;56;56;56;56;56;56;56;56;56;56;56;56;56;56;56;56;56;56;56;56;56;56;
   56;56;56;56;56;56;56;56;56;56;56;56;56;56;56;56;56;56;56;56;56;56];
  [40;40;40;40;40;40;40;56;40;40;56;40;40;40;40;40;40;40;40;40;40;40;40;40;40;40;40;40;40;40;40;40;40;40;40;40;40;40;
   40;40;40;40;40;40;40;40;40;40;40;78;78;78;78;78;78;56;56;56;78;56;78;78;56;78;78;78;54;78;54;54;40;78;56;56;56;56;
   56;56;56;56;9;9;9;9;9;9;9;9;9;9;56;56;56;56;56;56;40;40;40;40;40;40;56;40;40;56;40;40;40;40;40;40;40;40;40;40;40;
   40;40;40;40;40;40;40;40;40;40;40;40;40;40;40;40;40;40;40;40;40;79;79;79;79;79;56;78;78;56;79;79;78;79;54;40;56;56;
   56;56;56;56;56;9;9;9;9;9;9;9;9;9;9;56;56;56;56;56;56;56;56;56;56;56;56;56;56;56;56;56;56;56;56;56;56;56;56;56;56;
   56;56;56;56;56;56;56;56;56;56;56;56;56;56;56;56;56;56;56;56;56;56;56;56;56;56;56;56;56;56;56;56;56;56;56;56;56;56;
   56;56;56;56;56;56;56;56;56;56;56;56;56;56;56;56;56;56;56;56;56;56];
  [56;56;56;56;56;56;56;56;56;56;56;56;56;56;56;56;56;56;56;56;56;56;56;56;56;56;56;56;56;56;56;56;56;56;56;56;56;56;
   56;56;56;56;56;56;56;56;56;56;56;56;56;56;56;56;56;56;56;56;56;56;56;56;56;56;56;56;56;56;56;56;56;56;56;56;56;56;
   56;56;56;56;56;56;56;56;56;56;56;56;56;56;56;56;56;56;56;56;56;56;56;56;56;56;56;56;56;56;56;56;56;56;56;56;56;56;
   56;56;56;56;56;56;56;56;56;56;56;56;56;56;56;56;56;56;56;56;56;56;56;56;56;56;56;56;56;56;56;56;56;56;56;56;56;56;
   56;56;56;56;56;56;56;56;56;56;56;56;56;56;56;56;56;56;56;56;56;56;56;56;56;56;56;56;56;56;56;56;56;56;56;56;56;56;
   56;56;56;56;56;56;56;56;56;56;56;56;56;56;56;56;56;56;56;56;56;56;56;56;56;56;56;56;56;56;56;56;56;56;40;40;40;40;
   40;40;40;40;40;40;40;40;40;40;40;40;40;40;40;78;78;79;79;3;3;56;56;56;56;56;56;56];
  [78;78;40;79;40;40;40;40;40;40;40;40;40;40;40;40;40;56;40;40;40;40;40;40;40;40;40;40;40;40;40;40;40;40;40;40;40;40;
   40;40;40;40;40;40;40;40;40;40;40;40;40;40;79;79;78;78;78;78;78;56;56;56;79;79;78;81;54;3;3;3;3;3;3;3;3;3;3;3;3;3;9;
   9;9;9;9;9;9;9;9;9;56;56;56;56;56;56;56;56;56;56;56;56;56;56;56;56;56;56;56;56;56;56;56;56;56;56;56;56;56;56;56;56;
   56;56;56;56;56;56;56;56;56;56;56;56;56;56;56;56;56;56;56;56;56;56;56;56;56;56;56;56;56;56;56;56;56;56;56;56;56;56;
   56;56;56;56;56;56;56;56;56;56;56;56;56;56;56;56;40;56;56;56;56;56;56;56;56;56;56;56;56;56;56;56;18;18;18;18;18;18;
   18;18;18;18;18;18;18;18;18;18;18;18;18;18;18;14;14;14;14;14;14;14;14;4;4;4;4;14;14;14;14;14;14;14;14;14;14;14;14;
   14;14;14;14;14;56;56;56;56;56;56;56;56;56;56;56;56;56;3];
  [40;40;40;40;40;40;40;40;40;40;40;40;40;40;40;40;40;40;40;40;40;40;40;40;40;40;40;40;40;40;40;40;40;40;40;40;40;40;
   40;40;40;40;40;40;40;40;40;40;40;40;40;40;40;40;40;40;40;40;40;40;40;40;40;40;40;40;40;40;40;40;40;40;40;40;40;40;
   40;40;40;40;40;40;40;40;40;40;40;40;40;40;40;40;40;40;40;40;40;40;40;40;40;40;40;40;40;40;40;40;40;40;40;40;40;40;
   40;40;40;40;40;40;40;40;40;40;40;40;40;40;40;40;40;40;40;40;40;40;40;40;40;40;40;40;40;40;40;40;40;40;40;40;40;40;
   40;40;56;56;56;56;56;56;56;56;56;56;56;56;56;56;56;56;56;56;56;56;56;56;56;56;56;56;56;56;56;56;56;56;56;56;56;56;
   56;56;56;56;56;56;56;56;56;56;56;56;56;56;56;56;56;56;56;56;56;56;56;56;56;56;56;56;56;56;56;56;56;56;56;56;56;56;
   56;56;56;56;56;56;56;56;56;56;56;56;56;56;56;56;56;56;56;56;56;56;56;56;56;56;56;56];
  [85;85;85;85;85;85;85;85;85;85;85;85;85;85;85;85;85;85;85;85;85;85;85;85;85;85;85;85;85;85;85;85;85;85;85;85;85;85;
   85;85;85;85;85;85;85;85;85;85;85;85;85;85;85;85;85;85;85;85;85;85;85;85;85;85;85;85;85;85;85;85;85;85;85;85;85;85;
   85;85;85;85;85;85;85;85;85;85;85;85;85;85;85;85;85;85;85;85;85;85;85;85;85;85;85;85;85;85;85;85;85;85;85;56;3;3;3;
   3;3;56;56;56;56;56;56;56;56;56;56;56;40;40;40;40;40;40;40;40;40;40;40;40;40;40;40;40;40;40;40;40;40;40;40;40;40;40;
   40;40;40;40;40;40;40;40;40;40;40;40;40;40;40;40;40;40;40;40;40;40;40;40;40;40;40;40;40;40;40;40;40;40;40;40;40;40;
   40;40;40;40;40;40;40;40;40;40;40;40;40;40;40;40;40;40;40;40;40;40;40;40;40;40;40;40;40;40;40;40;40;40;40;40;40;40;
   40;40;40;40;40;40;40;40;40;40;40;40;40;40;40;40;40;40;40;40;40;40;40;40;40;40];
  [40;40;40;40;40;40;40;40;40;40;40;40;40;40;40;40;40;40;40;40;40;40;40;40;40;40;40;40;40;40;40;40;40;40;40;40;40;40;
   40;40;40;40;40;40;40;40;40;40;40;40;40;40;40;40;40;40;40;40;40;40;40;40;40;40;40;40;40;40;56;56;56;56;56;56;56;56;
   56;56;56;56;56;56;56;56;56;56;56;56;56;56;56;56;56;56;56;56;56;56;56;56;56;56;56;56;56;56;56;56;56;56;56;56;56;56;
   56;56;56;56;56;56;56;56;56;56;56;56;56;56;56;56;56;56;56;56;56;56;56;56;56;56;56;56;56;56;56;56;56;56;56;56;56;56;
   56;56;56;56;56;56;56;56;56;56;56;56;56;56;56;56;56;56;56;56;56;56;56;56;56;56;56;56;56;56;56;56;56;56;56;56;56;56;
   56;56;56;56;56;56;56;56;56;56;56;56;56;56;56;56;56;56;56;56;56;56;56;56;56;56;56;56;56;56;56;56;56;56;56;56;56;56;
   56;56;56;56;56;56;56;56;56;56;56;56;56;56;56;56;56;56;56;56;56;56;56;56;56;56;56;56];
  [56;56;56;56;56;56;56;56;56;56;56;56;56;56;56;56;56;56;56;56;56;56;56;56;56;56;56;56;56;56;56;56;56;56;56;56;56;56;
   56;56;56;56;56;56;56;56;56;56;56;56;56;56;56;56;56;56;56;56;56;56;56;56;56;56;56;56;56;56;56;56;56;56;56;56;56;56;
   56;56;56;56;56;56;56;56;56;56;56;56;56;56;56;56;56;56;56;56;56;56;56;56;56;56;56;56;56;56;56;56;56;56;56;56;56;56;
   56;56;56;56;56;56;56;56;56;56;56;56;56;56;56;56;56;56;56;56;56;56;56;56;56;56;56;56;56;56;56;56;56;56;56;56;56;56;
   56;56;56;56;56;56;56;56;56;56;56;56;56;56;56;56;56;56;56;56;56;56;56;56;56;56;56;56;56;56;56;56;56;56;56;56;56;56;
   56;56;56;56;56;56;56;56;56;56;56;56;56;56;56;56;56;56;56;56;56;56;56;56;56;56;56;56;56;56;56;56;56;56;56;56;56;56;
   56;56;56;56;56;56;56;56;56;56;56;56;56;56;56;56;56;56;56;56;56;56;56;56;56;56;56;56];
  [56;56;56;56;56;56;56;56;56;56;56;56;56;56;56;56;56;56;56;56;56;56;56;56;56;56;56;56;56;56;56;56;56;56;56;56;56;56;
   56;56;56;56;56;56;56;56;56;56;56;56;56;56;56;56;56;56;56;56;56;56;56;56;56;56;56;56;56;56;56;56;56;56;56;56;56;56;
   56;56;56;56;56;56;56;56;56;56;56;56;56;56;56;56;56;56;56;56;56;56;56;56;56;56;56;56;56;56;56;56;56;56;56;56;56;56;
   56;56;56;56;56;56;56;56;56;56;56;56;56;56;56;56;56;56;56;56;56;56;56;56;56;56;56;56;56;56;40;40;40;40;40;40;40;40;
   40;40;40;40;40;40;40;40;40;40;40;40;40;40;40;40;40;40;40;40;40;40;40;40;40;40;40;40;40;40;40;40;40;40;40;40;40;40;
   40;40;40;40;40;40;40;40;40;40;40;40;40;40;40;40;40;40;40;40;40;40;40;40;40;40;40;40;40;40;40;40;40;40;40;40;40;40;
   40;40;40;40;40;40;40;40;40;40;40;40;40;3;3;56;56;56;56;56;56;56;56;56;56;56;56;56];
  [40;40;40;40;40;40;40;40;40;40;40;40;40;40;40;40;40;40;40;40;40;40;40;40;40;40;40;40;40;40;40;40;40;40;40;40;40;40;
   40;40;40;40;40;40;40;40;40;40;17;17;17;17;17;17;17;17;17;17;17;17;17;17;17;17;54;40;40;40;40;40;40;54;54;54;54;54;
   54;54;54;54;54;54;54;54;54;54;56;56;56;56;56;56;56;56;56;56;56;56;56;56;56;56;56;56;56;56;56;56;56;56;56;56;56;56;
   56;56;56;56;56;56;56;56;56;56;56;56;56;56;56;56;56;56;56;56;56;56;56;56;56;56;56;56;56;56;56;56;56;56;56;56;56;56;
   56;56;56;56;56;56;56;56;56;56;56;56;56;56;56;56;56;56;56;56;56;56;56;56;56;56;56;56;56;56;56;56;56;56;56;56;56;56;
   56;56;56;56;56;56;56;56;56;56;56;56;56;56;56;56;56;56;56;56;56;56;56;56;56;56;56;56;56;56;56;56;56;56;56;56;56;56;
   56;56;56;56;56;56;56;56;56;56;56;56;56;56;56;56;56;56;56;56;56;56;56;56;56;56;56;56];
  [40;40;40;40;40;40;40;40;40;40;40;40;40;40;40;40;40;40;40;40;40;40;40;40;40;40;40;40;40;40;40;40;40;40;40;40;40;40;
   40;40;40;40;40;40;40;40;40;40;40;40;40;40;40;40;40;40;40;40;40;40;40;40;40;40;40;40;40;40;40;40;40;56;56;56;56;56;
   56;56;56;56;56;56;56;56;56;56;56;56;56;56;56;56;56;56;56;56;56;56;56;56;56;56;56;56;56;56;56;56;56;56;56;56;56;56;
   56;56;56;56;56;56;56;56;56;56;56;56;56;56;56;56;56;56;56;56;56;56;56;56;56;56;56;56;56;56;56;56;56;56;56;56;56;56;
   56;56;56;56;56;56;56;56;56;56;56;56;56;56;56;56;56;56;56;56;56;56;56;56;56;56;56;56;56;56;56;56;56;56;56;56;56;56;
   56;56;56;56;56;56;56;56;56;56;56;56;56;56;56;56;56;56;56;56;56;56;56;56;56;56;56;56;56;56;56;56;56;56;56;56;56;56;
   56;56;56;56;56;56;56;56;56;56;56;56;56;56;56;56;56;56;56;56;56;56;56;56;56;56;56;56];
  [40;40;40;40;40;40;40;40;40;40;40;40;40;40;40;40;40;40;40;40;40;40;40;40;40;40;40;40;40;40;40;40;40;40;40;40;40;40;
   40;40;40;40;40;40;40;40;40;40;40;40;40;40;40;40;40;40;40;56;56;56;56;56;56;56;40;40;40;40;40;40;40;40;40;40;40;40;
   40;40;40;40;40;40;40;40;40;40;40;40;40;40;40;40;40;40;40;56;9;9;9;9;9;9;9;9;9;9;56;56;56;56;3;3;40;40;40;40;40;40;
   40;40;40;40;40;40;40;40;40;40;40;40;40;40;40;40;40;40;40;40;40;40;40;40;40;40;40;40;40;40;40;40;40;40;40;40;40;40;
   40;40;40;40;40;40;40;40;40;40;40;40;40;40;40;40;40;40;40;40;40;40;40;40;40;40;40;40;40;40;40;40;40;40;40;56;9;9;9;
   9;9;9;9;9;9;9;56;56;56;56;56;56;40;40;40;40;40;40;40;40;40;40;40;40;40;40;40;40;40;40;40;40;40;40;40;40;40;40;40;
   40;40;40;56;56;54;54;54;54;54;3;56;56;56;56;56;56;56;56;56;56];
  [40;40;40;40;40;40;40;40;40;40;40;40;40;40;40;40;40;40;40;40;40;40;40;40;40;40;40;40;40;40;40;40;40;40;40;40;40;40;
   40;40;40;40;40;40;40;40;40;40;54;54;54;54;54;54;54;3;3;3;3;3;14;14;14;14;53;53;53;53;3;14;56;56;56;56;56;56;56;56;
   56;56;9;9;9;9;9;9;9;9;9;9;56;18;18;18;18;18;18;18;56;40;40;40;40;40;40;40;40;40;40;40;40;40;40;40;40;40;40;40;40;
   40;56;56;56;56;56;40;40;40;40;40;40;40;40;40;40;40;40;40;40;40;40;40;40;40;56;56;56;56;56;56;56;56;56;56;56;56;56;
   56;56;56;56;56;56;56;56;56;56;56;56;56;56;56;56;56;56;56;56;56;56;56;56;56;56;56;56;56;56;56;56;56;56;56;56;56;56;
   56;56;56;56;56;56;56;56;56;56;56;56;56;56;56;56;56;56;56;56;56;56;56;56;56;56;56;56;56;56;56;56;56;56;56;56;56;56;
   56;56;56;56;56;56;56;56;56;56;56;56;56;56;56;56;56;56;56;56;56;56;56];
  [56;56;56;56;56;56;56;56;56;56;56;56;56;56;56;56;56;56;56;56;56;56;56;56;56;56;56;56;56;56;56;56;56;56;56;56;56;56;
   56;56;56;56;56;56;56;56;56;56;56;56;56;56;56;56;56;56;56;56;56;56;56;56;56;56;10;10;10;10;10;10;10;10;10;10;10;10;
   10;10;10;10;10;10;10;10;10;10;10;10;10;10;10;10;10;10;10;10;13;13;13;13;13;13;13;13;13;13;13;13;13;13;13;13;13;13;
   13;13;13;13;13;13;13;13;13;13;13;13;13;13;18;18;18;18;18;18;18;18;18;18;18;18;18;18;18;18;18;18;18;18;18;18;18;3;3;
   3;3;56;56;56;56;56;56;56;56;56;56;56;56;56;56;56;56;56;56;56;56;56;56;56;56;56;56;56;56;56;56;56;56;56;56;56;56;56;
   56;56;56;56;56;56;56;56;56;56;56;56;56;56;56;56;56;56;56;56;56;56;56;56;56;56;56;56;56;56;56;56;56;56;56;56;56;56;
   56;56;56;56;56;56;56;56;56;56;56;56;56;56;56;56;56;56;56;56;56;56;56;56;56;56];
  [40;40;40;40;40;40;40;40;40;40;40;40;40;40;40;40;40;40;40;40;40;40;40;40;40;40;40;40;40;40;40;40;40;40;40;40;40;40;
   40;40;40;40;40;40;40;40;40;40;40;40;40;40;40;40;40;40;40;40;40;40;40;40;40;40;40;40;40;40;40;40;40;40;40;40;40;56;
   56;56;56;78;40;79;79;79;79;79;79;79;79;79;79;79;79;79;79;79;79;79;79;79;79;79;79;79;79;79;79;79;79;79;79;79;79;79;
   79;79;79;79;79;79;79;79;79;79;79;79;79;79;79;79;79;79;79;79;79;79;56;56;56;56;56;56;56;78;78;78;78;53;53;53;53;53;
   53;53;53;53;53;53;53;53;56;56;56;56;56;56;56;56;56;56;56;56;56;56;56;56;56;56;56;56;56;56;56;56;56;56;56;56;56;56;
   56;56;56;56;56;56;56;56;56;56;56;56;56;56;56;56;56;56;56;56;56;56;56;56;56;56;56;56;56;56;56;56;56;56;53;53;3;53;
   54;56;56;56;56;56;56;56;56;56;56;56;79;79;56;56;56;56;56;56;56;56;56;56;56;56;56;56];
  [40;40;40;40;40;40;40;40;40;40;40;40;40;40;40;40;40;40;40;40;40;40;40;40;40;40;40;40;40;40;40;40;40;40;40;40;40;40;
   40;40;40;40;40;40;40;40;40;40;40;40;40;40;40;40;40;40;40;40;40;40;40;40;40;40;40;40;40;40;40;40;40;40;40;40;40;40;
   40;40;40;40;40;40;40;40;40;40;40;40;40;40;40;40;40;40;40;40;40;40;40;40;40;40;40;40;40;40;40;40;40;40;40;40;40;40;
   40;40;40;40;40;40;40;40;40;40;40;40;40;40;40;40;40;40;40;40;40;40;40;40;40;40;40;40;40;40;40;40;40;40;40;40;40;40;
   40;40;40;40;40;40;40;40;40;40;40;40;40;40;40;40;40;40;40;40;40;40;40;40;40;40;40;40;40;40;40;40;40;40;40;40;40;40;
   40;40;40;40;40;40;40;40;40;40;40;40;40;40;40;40;40;40;40;40;40;40;40;40;40;40;40;40;40;40;40;40;40;40;40;40;40;40;
   40;40;40;40;40;40;40;40;40;40;40;40;40;40;40;40;40;40;40;40;56;56;56;56;56;56;56;56];
  [40;40;40;40;40;40;40;40;40;40;40;40;40;40;40;40;40;40;40;40;40;40;40;40;40;40;40;40;40;40;40;40;40;40;40;40;40;40;
   40;40;40;40;40;40;40;40;40;40;40;40;40;40;40;40;40;40;40;40;40;40;40;40;40;40;40;40;40;40;40;40;40;40;40;40;40;40;
   40;40;40;40;40;40;40;40;40;40;40;40;40;40;40;40;40;40;40;40;40;40;40;40;40;40;40;40;40;40;40;40;40;40;40;40;40;40;
   40;40;40;40;40;40;40;40;40;40;40;40;40;40;40;40;40;40;40;40;40;40;40;40;40;40;40;40;40;40;40;40;40;40;40;40;40;40;
   40;40;40;40;40;40;40;40;40;40;40;40;40;40;40;40;40;40;40;40;40;40;40;40;40;40;40;40;40;40;40;40;40;40;40;40;40;40;
   40;40;40;40;40;40;40;40;40;40;40;40;40;40;40;40;40;40;40;40;40;40;40;40;56;56;56;56;56;56;56;56;56;56;56;56;56;56;
   56;56;56;56;56;56;56;56;56;56;56;56;56;56;56;56;56;56;56;56;56;56;56;56;56;56;56;56];
  [40;40;40;40;40;40;40;40;40;56;56;56;56;56;56;56;56;56;56;56;56;56;56;56;56;56;56;56;56;56;56;56;56;56;56;56;56;56;
   56;56;56;56;56;56;56;56;56;56;56;56;56;56;56;56;56;56;56;56;56;56;56;56;56;56;56;56;56;56;56;56;56;56;56;56;56;56;
   56;56;56;56;56;56;56;56;56;56;56;56;56;56;56;56;56;56;56;56;56;56;56;56;56;56;56;56;56;56;56;56;56;56;56;56;56;56;
   56;56;56;56;56;56;56;56;56;56;56;56;56;56;56;56;56;56;56;56;56;56;56;56;56;56;56;56;56;56;56;56;56;56;56;56;56;56;
   56;56;56;56;56;56;56;56;56;56;56;56;56;56;56;56;56;56;56;56;56;56;56;56;56;56;56;56;56;56;56;56;56;56;56;56;56;56;
   56;56;56;56;56;56;56;56;56;56;56;56;56;56;56;56;56;56;56;56;56;56;56;56;56;56;56;56;56;56;56;56;56;56;56;56;56;56;
   56;56;56;56;56;56;56;56;56;56;56;56;56;56;56;56;56;56;56;56;56;56;56;56;56;56;56;56];
  [56;56;56;56;56;56;56;56;56;56;56;56;56;56;56;56;56;56;56;56;56;56;56;56;56;56;56;56;56;56;56;56;56;56;56;56;56;56;
   56;56;56;56;56;56;56;56;56;56;56;56;56;56;56;56;56;56;56;56;56;56;56;56;56;56;56;56;56;56;56;56;56;56;56;56;56;56;
   56;56;56;56;56;56;56;56;56;56;56;56;56;56;56;56;56;56;56;56;56;56;56;56;56;56;56;56;56;56;56;56;56;56;56;56;56;56;
   56;56;56;56;56;56;56;56;56;56;56;56;56;56;56;56;56;56;56;56;56;56;56;56;56;56;56;56;56;56;56;56;56;56;56;56;56;56;
   56;56;56;56;56;56;56;56;56;56;56;56;56;56;56;56;56;56;56;56;56;56;56;56;56;56;56;56;56;56;56;56;56;56;56;56;56;56;
   56;56;56;56;56;56;56;56;56;56;56;56;56;56;56;56;56;56;56;56;56;56;56;56;56;56;56;56;56;56;56;56;56;56;56;56;56;56;
   56;56;56;56;56;56;56;56;56;56;56;56;53;53;53;53;56;53;53;53;53;53;53;53;56;53;53;56];
  [40;40;40;40;40;40;40;40;40;40;40;40;40;40;40;40;40;40;40;40;40;40;40;40;40;40;40;40;40;40;40;40;40;40;40;56;56;56;
   56;56;56;56;56;56;56;56;56;56;56;56;40;56;56;56;56;56;56;56;56;56;56;56;56;56;56;56;56;56;56;56;56;56;56;56;56;56;
   56;56;56;56;40;40;40;56;56;40;56;56;56;56;56;56;56;56;56;56;56;56;56;56;40;40;40;40;56;56;56;56;56;56;56;56;40;40;
   40;40;40;40;40;40;40;40;40;40;40;40;40;40;40;40;40;40;40;40;40;40;40;40;40;40;40;40;40;40;40;40;40;40;40;40;40;40;
   40;40;40;40;40;40;40;40;40;40;40;40;40;40;40;40;40;40;40;40;40;40;40;40;40;40;40;40;40;40;40;40;40;40;40;40;40;40;
   40;40;40;40;40;40;40;40;40;40;40;40;40;40;40;40;40;40;40;40;40;40;40;40;40;40;40;40;40;40;40;40;40;40;40;40;40;40;
   40;40;40;40;40;40;40;40;40;40;40;40;40;40;40;40;40;40;40;40;40;40;40;40;40;40;40;40];
  [40;40;40;40;40;40;40;40;40;40;40;40;40;40;40;40;40;40;40;40;40;40;40;40;40;40;40;40;40;40;40;40;40;40;40;40;40;40;
   40;40;40;40;40;40;40;40;40;40;40;40;40;40;40;40;40;40;40;40;40;40;40;40;40;40;40;40;40;40;40;40;40;40;40;40;40;40;
   40;40;40;40;40;40;40;40;40;40;40;40;40;40;40;40;40;40;40;40;40;40;40;40;40;40;40;40;40;40;40;40;40;40;40;40;40;40;
   40;40;40;40;40;40;40;40;40;40;40;40;40;40;40;40;40;40;40;40;40;40;40;40;40;40;40;40;40;40;40;40;40;40;40;40;40;40;
   40;40;40;40;40;40;40;40;40;40;40;40;40;40;40;40;40;40;40;40;40;40;40;40;40;40;40;40;40;40;40;40;40;40;40;40;40;40;
   40;40;40;40;40;40;40;40;40;40;40;40;40;40;40;40;40;40;40;40;40;40;40;40;40;40;40;40;40;40;40;40;40;40;40;40;40;40;
   40;40;40;40;40;40;40;40;40;40;40;40;40;40;40;40;40;40;40;40;40;40;40;40;56;56;56;56];
  [40;40;40;40;40;40;40;40;40;40;40;40;40;40;40;40;40;40;40;40;40;40;40;40;40;40;40;40;40;40;40;40;40;40;40;40;40;40;
   40;40;40;40;40;40;40;40;40;40;40;40;40;40;40;40;40;40;40;40;40;40;40;40;40;40;40;40;40;40;40;40;40;40;40;40;40;40;
   40;40;40;40;40;40;40;40;40;40;40;40;40;40;40;40;40;40;40;40;40;40;40;40;40;40;40;40;40;40;40;56;56;56;56;56;40;40;
   40;40;40;40;40;40;40;40;40;40;40;56;56;56;40;40;40;40;40;40;40;40;40;56;56;56;56;56;56;56;40;40;40;40;40;40;40;40;
   40;40;56;56;14;54;78;3;17;17;17;17;56;56;56;56;56;56;56;56;56;56;56;56;56;56;56;56;56;56;56;56;56;56;56;56;56;56;
   56;56;56;56;56;56;56;56;56;56;56;56;56;56;56;56;56;56;56;56;56;56;56;56;56;56;56;56;56;56;56;56;56;56;56;56;56;56;
   56;56;56;56;56;56;56;56;56;56;56;56;56;56;56;56;56;56;56;56;56;56;56;56;56;56;56;56];
  [54;54;54;54;54;54;54;54;54;54;54;54;54;54;54;54;54;54;54;54;54;54;54;54;54;54;54;54;54;54;54;54;54;54;54;54;54;54;
   54;54;54;54;54;54;54;54;56;56;54;54;54;54;54;54;54;54;54;54;54;54;54;54;54;54;54;54;54;54;54;54;54;56;56;56;56;56;
   56;56;56;56;14;14;14;14;14;14;14;14;14;14;14;14;14;14;14;14;14;14;14;14;14;14;14;14;14;14;14;14;14;14;14;14;14;14;
   14;14;14;14;14;14;14;14;14;14;14;14;14;14;14;14;14;14;14;14;14;14;14;14;14;14;14;14;14;14;14;14;14;14;14;14;14;14;
   14;14;14;14;14;14;14;14;14;14;14;14;14;14;14;14;14;14;14;14;14;14;14;14;14;14;14;14;14;14;14;14;14;14;14;14;14;14;
   14;14;14;14;14;14;56;56;56;56;56;56;56;56;56;56;56;56;56;56;56;56;56;56;56;56;56;56;56;56;56;56;56;56;56;56;56;56;
   56;56;56;56;56;56;56;56;56;56;56;56;56;56;56;56;56;56;56;56;56;56;56;56;56;56;56;56];
  [14;14;14;14;14;14;14;14;14;14;14;14;14;14;14;14;14;14;14;14;14;14;14;14;14;14;14;14;14;14;14;14;14;14;14;14;14;14;
   14;14;14;14;14;14;14;14;14;14;14;14;14;14;14;14;14;14;14;14;14;14;14;14;14;14;14;14;14;14;14;14;14;14;14;14;14;14;
   14;14;14;14;14;14;14;14;14;14;14;14;14;14;14;14;14;14;14;14;14;14;14;14;14;14;14;14;14;14;14;14;14;14;14;14;14;14;
   14;14;14;14;14;14;14;14;14;14;14;14;14;14;14;14;14;14;14;14;14;14;14;14;14;14;14;14;14;14;14;14;14;14;14;14;14;14;
   14;14;14;14;14;14;14;14;14;14;14;14;14;14;14;14;14;14;14;14;14;14;14;14;14;14;14;14;14;14;14;14;14;14;14;14;14;14;
   14;14;14;14;14;14;14;14;14;14;14;14;14;14;14;14;14;14;14;14;14;14;14;14;14;14;14;14;14;14;14;14;14;14;14;14;14;14;
   14;14;14;14;14;14;14;14;14;14;14;14;14;14;14;14;14;14;56;56;56;56;56;56;56;56;56;56];
  [14;14;14;14;14;14;14;14;14;14;14;14;14;14;14;14;14;14;14;14;14;14;14;14;14;14;14;14;14;14;14;14;14;14;14;14;14;14;
   14;56;56;14;14;14;14;14;14;14;14;14;14;14;14;14;14;14;14;14;14;14;14;14;14;14;14;14;14;14;14;14;14;14;14;14;14;14;
   14;14;14;14;14;14;14;14;14;14;14;14;14;14;14;14;14;14;14;14;14;14;14;14;14;81;81;54;54;54;14;14;14;81;81;81;81;81;
   81;17;17;17;17;17;17;17;17;54;54;54;54;54;54;54;54;14;14;54;54;54;54;54;54;54;14;14;14;14;14;14;14;14;14;14;14;14;
   14;14;14;14;14;14;14;14;14;14;14;14;14;14;14;14;14;14;54;54;54;54;14;14;14;14;14;14;14;14;14;14;14;14;14;14;14;14;
   14;14;14;14;14;14;14;14;14;14;14;14;14;14;14;14;14;14;14;14;14;14;14;14;14;14;14;14;14;14;14;14;14;14;14;14;14;14;
   14;14;14;14;14;14;14;56;56;56;56;56;56;56;56;56;56;56;56;56;56;56;56;56;56;56;56;56];
  [14;14;14;14;14;14;14;14;14;14;14;14;14;14;14;14;14;14;14;14;14;14;14;14;14;14;14;14;14;14;14;14;14;14;14;14;14;14;
   14;14;14;14;14;14;14;14;14;14;14;14;14;14;14;14;14;14;14;14;14;14;14;14;14;14;14;14;54;54;54;14;56;56;56;56;56;56;
   56;56;56;56;56;56;56;56;56;56;56;56;56;56;56;56;56;56;56;56;56;56;56;56;56;56;56;56;56;56;56;56;56;56;56;56;56;56;
   56;56;56;56;56;56;56;56;56;56;56;56;56;56;56;56;56;56;56;56;56;56;56;56;56;56;56;56;56;56;56;56;56;56;56;56;56;56;
   56;56;56;56;56;56;56;56;56;56;56;56;56;56;56;56;56;56;56;56;56;56;56;56;56;56;56;56;56;56;56;56;56;56;56;56;56;56;
   56;56;18;18;18;18;18;18;18;18;18;18;18;18;18;18;18;18;18;18;18;18;56;56;56;56;56;56;56;56;56;56;56;56;18;18;18;18;
   18;18;18;18;18;18;18;18;18;18;18;18;18;18;18;18;56;56;56;56;56;56;56;56;56;56;56;56];
  [14;14;14;14;14;14;14;14;14;14;14;14;14;14;14;14;14;14;14;14;14;14;14;14;14;14;14;14;14;14;14;14;14;14;14;14;14;14;
   14;14;14;14;14;14;14;14;14;14;14;14;14;14;14;14;14;14;14;14;14;14;14;14;14;14;14;14;14;14;14;14;14;14;14;14;14;14;
   14;14;14;14;14;14;14;14;14;14;14;56;56;56;56;56;56;56;56;56;18;18;18;18;18;18;18;18;18;18;18;18;18;18;18;18;18;18;
   18;18;18;18;18;18;18;56;56;56;56;56;56;56;56;56;56;56;56;56;56;56;56;56;56;56;56;56;56;56;56;56;56;56;56;56;56;56;
   56;56;56;56;56;56;56;56;56;56;56;56;56;56;56;56;56;56;56;56;56;56;56;56;56;56;56;56;56;56;56;56;56;56;56;56;56;56;
   56;56;56;56;56;56;56;56;56;56;56;56;56;56;56;56;56;56;56;56;56;56;56;56;56;56;56;56;56;56;56;56;56;56;56;56;56;56;
   56;56;56;56;56;56;56;56;56;56;56;56;56;56;56;56;56;56;56;56;56;56;56;56;56;56;56;56];
  [23;23;23;23;23;23;23;23;23;23;23;23;23;23;23;23;23;23;23;23;23;23;23;23;23;23;13;13;13;13;13;13;13;13;13;13;13;13;
   13;13;13;13;13;13;13;13;13;13;13;13;13;13;23;23;23;23;23;23;23;23;23;23;23;23;23;23;23;23;23;23;23;23;23;23;23;23;
   23;23;13;13;13;13;13;13;13;56;13;13;13;13;13;13;13;13;13;13;13;13;13;13;13;13;13;13;23;23;23;23;23;23;23;23;23;23;
   23;23;23;23;23;23;23;23;23;23;23;23;23;23;23;23;13;13;13;13;13;13;13;13;13;13;13;13;13;13;13;13;13;13;13;13;13;13;
   13;13;13;13;23;56;23;23;56;56;23;56;56;23;23;56;56;23;23;23;23;56;23;23;23;23;23;23;23;23;13;13;13;13;56;13;56;13;
   13;13;13;13;13;13;56;13;13;13;13;13;13;13;13;13;13;13;23;23;23;23;23;23;23;23;23;23;23;23;23;23;23;23;23;23;23;23;
   23;23;23;23;23;23;13;13;13;13;13;13;13;13;13;13;13;13;13;13;13;13;13;13;13;13;13;13];
  [13;13;13;13;23;23;56;23;23;23;23;56;56;23;23;23;23;23;23;23;23;56;23;23;23;23;23;23;23;56;13;13;13;13;13;13;13;13;
   13;13;13;13;13;13;13;13;13;13;13;13;13;13;13;13;13;13;23;23;56;23;23;23;23;56;23;23;23;23;23;56;23;56;56;56;23;23;
   23;23;23;23;23;56;13;13;13;13;13;13;13;13;13;13;13;13;13;13;13;13;13;13;13;13;13;13;13;13;13;13;23;23;23;23;23;23;
   23;23;23;23;23;23;23;23;23;23;23;23;23;23;23;23;23;23;23;23;13;13;13;13;13;13;13;13;13;13;13;13;13;13;13;13;13;13;
   13;13;13;13;13;13;13;13;23;23;23;23;23;23;23;23;23;23;23;23;23;23;23;23;23;23;23;23;23;23;23;23;23;23;13;13;13;13;
   13;13;13;13;13;13;13;13;13;13;13;13;13;13;13;13;13;13;13;13;13;13;23;23;23;23;23;23;23;23;23;23;23;23;23;23;23;23;
   23;23;23;23;23;23;23;23;23;23;13;13;13;13;13;13;13;13;13;13;13;13;13;13;13;13;13;13];
  [13;13;13;13;13;13;13;13;23;23;23;23;23;23;23;23;23;23;23;23;23;23;23;23;23;23;23;23;23;23;23;23;23;23;13;13;13;13;
   13;13;13;13;13;13;13;13;13;13;13;13;13;13;13;13;13;13;13;13;13;13;23;23;23;23;23;23;23;23;23;23;23;23;23;23;23;23;
   23;23;23;23;23;23;23;23;23;23;13;13;13;13;13;13;13;13;13;13;13;13;13;13;13;13;13;13;13;13;13;13;13;13;13;13;23;23;
   23;23;23;23;23;23;23;23;23;23;23;23;23;23;23;23;23;23;23;23;23;23;23;23;13;13;13;13;13;13;13;13;13;13;13;13;13;13;
   13;13;13;13;13;13;13;13;13;13;13;13;13;13;56;56;23;23;23;23;23;23;23;23;23;23;23;23;23;23;23;23;23;23;23;23;23;23;
   23;23;23;7;13;13;13;13;13;13;13;13;13;13;13;13;13;13;13;13;13;13;13;13;13;13;13;13;13;7;13;13;13;13;13;13;23;23;23;
   23;23;23;23;23;23;23;23;23;23;23;23;23;23;23;23;23;23;23;23;23;23;7;13;13;13;13];
  [13;13;13;13;13;13;13;13;13;13;13;13;13;13;13;13;13;13;13;13;13;7;13;13;13;13;13;13;23;23;23;23;23;23;23;23;23;23;
   23;23;23;23;23;23;23;23;23;23;23;23;23;23;23;7;13;13;13;13;13;13;13;13;13;13;13;13;13;13;13;13;13;13;13;13;13;13;
   13;13;13;7;13;13;13;13;13;13;23;23;23;23;23;23;23;23;23;23;23;23;23;23;23;23;23;23;23;23;23;23;23;23;23;7;13;13;13;
   13;13;13;13;13;13;13;13;13;13;13;13;13;13;13;13;13;13;13;13;13;13;7;13;13;13;13;13;13;23;23;23;23;23;23;23;23;23;
   23;23;23;23;23;23;23;23;23;23;23;23;23;23;23;23;7;13;13;13;13;13;13;13;13;13;13;13;13;13;13;13;13;13;13;13;13;13;
   13;13;13;13;7;13;13;13;13;13;13;23;13;56;56;9;9;9;9;9;9;9;9;9;9;9;9;9;9;9;9;9;9;9;9;9;9;9;9;9;9;9;9;9;9;9;9;9;9;9;
   9;9;9;9;9;9;9;9;9;9;9;9;9;9;9];
  [54;54;54;54;54;54;54;54;54;54;54;54;54;54;54;54;54;54;54;54;54;54;54;54;54;54;54;54;54;54;54;54;54;54;54;54;54;54;
   54;54;54;54;54;54;54;54;54;54;54;54;54;54;54;54;54;14;14;14;14;54;54;54;54;54;54;54;54;54;54;54;54;54;54;54;54;54;
   54;54;54;54;54;54;54;54;54;54;54;54;54;54;54;54;54;54;54;54;54;54;54;54;54;54;54;54;54;54;54;54;54;14;14;14;14;14;
   14;14;14;54;14;14;14;14;14;14;14;14;14;14;14;14;14;14;54;14;14;3;3;3;3;3;56;56;56;56;56;56;56;56;56;56;56;56;56;56;
   56;54;54;54;54;54;56;54;54;54;54;54;54;54;54;54;54;54;54;54;54;54;56;56;56;56;56;56;56;56;56;56;56;56;56;56;56;56;
   56;56;56;56;56;56;56;56;56;56;56;56;56;56;56;56;56;56;56;56;56;56;56;56;56;56;56;56;56;56;56;56;56;56;56;56;56;56;
   56;56;56;56;56;56;56;56;56;56;56;56;56;56;56;56;56;56;56;56;56;56;56;56;56;56];
  [13;13;13;13;13;13;13;13;13;13;40;13;13;13;13;13;13;13;13;13;13;13;13;13;13;13;13;13;13;13;13;56;56;56;56;56;56;13;
   13;13;13;13;13;56;56;56;56;56;56;56;56;56;56;56;56;56;56;56;56;56;56;56;56;56;56;56;56;56;56;56;56;56;56;56;56;56;
   56;56;56;56;56;56;56;56;56;56;56;56;56;56;56;56;56;56;56;56;56;56;56;56;56;56;56;56;56;56;56;56;56;56;56;56;56;56;
   56;56;56;56;56;56;56;56;56;56;56;56;56;56;56;56;56;56;56;56;56;56;56;56;56;56;56;56;56;56;56;56;56;56;56;56;56;56;
   56;56;56;56;56;56;56;56;56;56;56;56;56;56;56;56;56;56;56;56;56;56;56;56;56;56;56;56;56;56;56;56;56;56;56;56;56;56;
   56;56;56;56;56;56;56;56;56;56;56;56;56;56;56;56;56;56;56;56;56;56;56;56;56;56;56;56;56;56;56;56;56;56;56;56;56;56;
   56;56;56;56;56;56;56;56;56;56;56;56;56;56;56;56;56;56;56;56;56;56;56;56;56;56;56;56];
  [78;78;78;78;78;78;78;56;78;78;78;78;78;78;78;78;78;78;78;78;78;78;78;78;78;56;56;78;78;78;78;78;78;78;56;78;78;56;
   78;78;78;78;78;56;56;56;56;56;52;52;52;52;52;52;52;52;52;52;52;52;52;52;52;52;52;52;52;52;52;52;52;52;52;52;52;52;
   52;52;52;52;52;52;52;52;52;52;52;52;52;52;52;52;52;52;52;52;52;52;52;52;52;52;52;52;52;52;52;52;52;52;56;56;56;56;
   56;56;56;56;56;56;56;56;56;56;56;56;56;56;56;56;56;56;56;56;56;56;56;56;56;56;56;56;56;78;56;56;56;56;56;56;56;56;
   56;56;56;56;56;56;56;56;56;56;56;56;56;56;56;56;56;56;56;56;56;56;56;56;56;56;56;56;56;56;56;56;56;56;56;56;56;56;
   56;56;56;56;56;56;56;56;56;56;56;56;56;56;56;56;56;56;56;56;56;56;56;56;56;56;56;56;56;56;56;56;56;56;56;56;56;56;
   56;56;56;56;56;56;56;56;56;56;56;56;56;56;56;56;56;56;56;56;56;56;56;56;56;56;56;56];
  [40;40;40;40;40;40;40;40;40;40;40;40;40;40;40;40;40;40;40;40;40;40;40;40;40;40;40;40;40;40;40;40;40;40;40;40;40;40;
   40;40;40;40;40;40;40;56;56;56;54;54;54;54;54;54;54;53;53;53;53;53;53;53;56;56;9;9;9;9;9;9;9;9;9;9;56;56;56;56;40;
   14;56;56;56;56;56;56;56;56;56;56;56;56;56;56;56;56;56;56;56;56;56;56;56;56;56;56;56;56;56;56;56;56;56;56;56;56;56;
   56;56;56;56;56;56;56;56;56;56;56;56;56;56;56;56;56;56;56;56;56;56;56;56;56;56;56;56;56;56;56;56;56;56;56;56;56;56;
   56;56;56;56;56;56;56;56;56;56;56;56;56;56;56;56;56;56;56;56;56;56;56;56;56;56;56;56;56;56;56;56;56;56;56;56;56;56;
   56;56;56;56;56;56;56;56;56;56;56;56;56;56;56;56;56;56;56;56;56;56;56;56;56;56;56;56;56;56;56;56;56;56;56;56;56;56;
   56;56;56;56;56;56;56;56;56;56;56;56;56;56;56;56;56;56;56;56;56;56;56;56;56];
  [56;56;56;56;56;56;56;56;56;56;56;56;56;56;56;56;56;56;56;56;56;56;56;56;56;56;56;56;56;56;56;56;56;56;56;56;56;56;
   56;56;56;56;56;56;56;56;56;56;56;56;56;56;56;56;56;56;56;56;56;56;56;56;56;56;56;56;56;56;56;56;56;56;56;56;56;56;
   56;56;56;56;56;56;56;56;56;56;56;56;56;56;56;56;56;56;56;56;56;56;56;56;56;56;56;56;56;56;56;56;56;56;56;56;56;56;
   56;56;56;56;56;56;56;56;56;56;56;56;56;56;56;56;56;56;56;56;56;56;56;56;56;56;56;56;56;56;40;40;40;40;40;40;40;40;
   40;40;40;40;40;40;40;40;40;40;40;40;40;40;40;40;40;40;40;40;40;40;54;56;56;56;56;56;56;56;56;56;56;56;56;56;56;56;
   56;56;40;40;40;40;40;40;40;40;40;40;40;40;40;40;40;40;40;40;40;40;40;40;40;40;40;40;40;40;40;40;40;40;40;40;40;40;
   40;40;40;40;40;40;40;40;54;54;54;54;9;9;9;9;9;9;9;9;9;9;56;56;56;56;56;4];
  [56;56;56;56;56;56;56;56;56;56;56;56;56;56;56;56;56;56;56;56;56;56;56;56;56;56;56;56;56;56;56;56;56;56;56;56;56;56;
   56;56;56;56;56;56;56;56;56;56;56;56;56;56;56;56;56;56;56;56;56;56;56;56;56;56;56;56;56;56;56;56;56;56;56;56;56;56;
   56;56;56;56;56;56;56;56;56;56;56;56;56;56;56;56;56;56;56;56;56;56;56;56;56;56;56;56;56;56;56;56;56;56;56;56;56;56;
   56;56;56;56;56;56;56;56;56;56;56;56;56;56;56;56;56;56;56;56;56;56;56;56;56;56;56;56;56;56;56;56;56;56;56;56;56;56;
   56;56;56;56;56;56;56;56;56;56;56;56;56;56;56;56;56;56;56;56;56;56;56;56;56;56;56;56;56;56;56;56;56;56;56;56;56;56;
   56;56;56;56;56;56;56;56;56;56;56;56;56;56;56;56;56;56;40;40;40;40;40;40;40;40;40;40;40;40;40;40;40;40;40;40;40;40;
   40;40;40;40;40;40;40;53;54;54;54;54;9;9;9;9;9;9;9;9;9;9;56;56;56;56;56;56];
  [56;56;56;56;56;56;56;56;56;56;56;56;56;56;56;56;56;56;56;56;56;56;56;56;56;56;56;56;56;56;56;56;56;56;56;56;56;56;
   56;56;56;56;56;56;56;56;56;56;56;56;56;56;56;56;56;56;56;56;56;56;56;56;56;56;56;56;56;56;56;56;56;56;56;56;56;56;
   56;56;56;56;56;56;56;56;56;56;56;56;56;56;56;56;56;56;56;56;56;56;56;56;56;56;56;56;56;56;56;56;56;56;56;56;56;56;
   56;56;56;56;56;56;56;56;56;56;56;56;56;56;56;56;56;56;56;56;56;56;56;56;56;56;56;56;56;56;56;56;56;56;56;56;56;56;
   56;56;56;56;56;56;56;56;56;56;56;56;56;56;56;56;56;56;56;56;56;56;56;56;56;56;56;56;56;56;56;56;56;56;56;56;56;56;
   56;56;56;56;56;56;56;56;56;56;56;56;56;56;56;56;56;56;56;56;56;56;56;56;56;56;56;56;56;56;56;56;56;56;40;40;40;40;
   40;40;40;56;40;40;40;40;56;40;40;56;40;40;40;40;40;40;40;40;40;40;40;40;40;40;40;56];
  [40;40;40;40;40;40;40;40;40;40;40;40;40;40;40;40;40;40;40;40;40;40;40;40;40;40;40;40;40;40;40;40;40;40;40;40;40;40;
   40;40;40;40;40;40;40;40;40;40;40;40;40;40;40;40;40;40;40;40;40;40;40;40;40;40;40;40;40;40;40;40;40;40;40;40;40;40;
   40;40;40;40;40;40;40;40;40;40;40;40;40;40;40;40;40;40;40;40;40;40;40;40;40;40;40;40;40;40;40;40;40;40;40;40;40;40;
   40;40;40;40;40;40;40;40;40;40;40;40;40;40;40;40;40;40;40;40;40;40;40;40;40;40;40;40;40;40;40;40;40;40;40;40;40;40;
   40;40;40;40;40;40;40;40;40;40;40;40;40;40;40;40;40;40;40;40;40;40;40;40;40;40;40;40;40;40;40;40;40;40;40;40;40;40;
   40;40;40;40;40;40;40;56;56;18;18;18;18;18;18;18;18;18;54;54;54;54;54;54;54;56;56;56;56;56;56;56;56;56;56;56;56;56;
   56;56;56;56;56;56;56;56;56;56;56;56;56;56;56;56;56;56;56;56;56;56;56;56;56;56;56;56];
  [150;150;150;150;150;150;150;150;150;150;150;150;150;150;150;150;150;150;150;150;150;150;150;150;150;150;150;150;
   150;150;150;150;150;150;13;13;13;13;13;13;13;13;13;13;13;13;13;13;13;13;13;13;13;13;13;13;13;13;13;13;13;13;13;13;
   13;13;13;13;54;54;54;78;54;54;54;53;56;56;56;56;9;9;9;9;9;9;9;9;9;9;56;56;56;56;3;3;56;56;56;56;56;56;56;56;56;56;
   56;56;56;56;56;56;56;56;56;56;56;56;56;56;56;56;56;56;56;56;56;56;56;56;56;56;56;56;56;56;56;56;56;56;56;56;56;56;
   56;56;56;56;56;56;56;56;56;56;56;56;56;56;56;56;56;56;56;56;56;56;56;56;56;56;56;56;56;56;56;56;56;56;56;56;56;56;
   56;56;56;56;56;56;56;56;56;56;56;56;56;56;56;56;56;56;56;56;56;56;56;56;56;56;56;56;56;56;56;56;56;56;56;56;56;56;
   56;56;56;56;56;56;56;56;56;56;56;56;56;56;56;56;56;56;56;56;56;56;56;56;56;56;56;56;56;56;56;56;56;56;56;56];
  [56;56;56;56;56;56;56;56;56;56;56;56;56;56;56;56;56;56;56;56;56;56;56;56;56;56;56;56;56;56;56;56;56;56;56;56;56;56;
   56;56;56;56;56;56;56;56;56;56;56;56;56;56;56;56;56;56;56;56;56;56;56;56;56;56;56;56;56;56;56;56;56;56;56;56;56;56;
   56;56;56;56;56;56;56;56;56;56;56;56;56;56;56;56;56;56;56;56;56;56;56;56;56;56;56;56;56;56;56;56;56;56;56;56;56;18;
   18;18;18;18;18;18;18;18;18;18;18;18;18;18;18;18;18;18;18;18;18;18;18;18;18;18;18;18;18;18;18;18;18;18;18;18;18;18;
   18;18;18;18;18;18;18;18;18;18;18;18;18;18;18;18;18;18;18;18;14;18;18;18;4;18;18;18;18;56;56;56;56;56;56;56;56;56;
   56;56;56;56;56;56;56;56;56;56;56;56;56;56;56;56;56;56;56;56;56;56;56;56;56;56;56;56;56;56;56;56;56;56;56;56;56;56;
   56;56;56;56;56;56;56;56;56;56;56;56;56;56;56;56;56;56;56;56;56;56;56;56;56;56;56;56];
  [56;18;18;18;18;18;18;18;18;18;18;18;18;18;18;18;18;18;18;18;18;18;18;18;18;18;18;18;18;18;18;18;18;18;18;18;18;18;
   18;18;18;18;18;18;18;18;14;18;18;18;18;18;18;18;18;18;18;18;18;18;18;18;56;56;56;56;56;56;56;56;56;56;56;56;56;56;
   56;56;56;56;56;56;56;56;56;56;56;56;56;56;56;56;56;56;56;56;56;56;56;56;56;56;56;56;56;56;56;56;56;56;56;56;56;56;
   56;56;56;56;56;56;56;56;56;56;56;56;56;56;56;56;56;56;56;56;56;56;56;56;56;56;56;56;56;56;56;56;56;56;56;56;56;56;
   56;56;56;56;56;56;56;56;56;56;56;56;56;56;56;56;56;56;56;56;56;56;56;56;56;56;56;56;56;56;56;56;56;56;56;56;56;56;
   56;56;56;56;56;56;56;56;56;56;56;56;56;56;56;56;56;56;56;56;56;56;56;56;56;56;56;56;56;56;56;56;56;56;56;56;56;56;
   56;56;56;56;56;56;56;56;56;56;56;56;56;56;56;56;56;56;56;56;56;56;56;56;56;56;56;56];
  [40;40;40;40;56;40;40;40;40;40;40;40;40;40;40;40;40;40;40;40;40;40;40;40;40;40;40;40;40;40;40;40;56;40;40;56;40;56;
   56;40;56;40;40;40;40;40;40;40;40;40;40;56;40;40;40;40;56;40;56;40;56;56;56;56;56;56;40;56;56;56;56;40;56;40;56;40;
   56;40;40;40;56;40;40;56;40;56;56;40;56;40;56;40;56;40;56;40;56;40;40;56;40;56;56;40;40;40;40;56;40;40;40;40;40;40;
   40;56;40;40;40;40;56;40;40;40;40;56;40;56;40;40;40;40;40;40;40;40;40;40;56;40;40;40;40;40;40;40;40;40;40;40;40;40;
   40;40;40;40;56;56;56;56;56;40;40;40;56;40;40;40;40;40;56;40;40;40;40;40;40;40;40;40;40;40;40;40;40;40;40;40;56;56;
   56;56;56;56;56;56;56;56;56;56;56;56;56;56;56;56;56;56;56;56;56;56;56;56;56;56;56;56;56;56;56;56;56;56;56;56;56;56;
   56;56;56;56;56;56;56;56;56;56;56;56;7;7;56;56;56;56;56;56;56;56;56;56;56;56;56;56];
  [14;14;14;14;14;14;14;14;14;14;14;14;14;14;14;14;14;14;14;14;14;14;14;14;14;14;14;14;14;14;14;14;14;14;14;14;14;14;
   14;14;14;14;14;14;56;56;56;56;14;14;14;14;14;14;14;14;14;14;14;14;14;14;14;14;14;14;14;14;14;14;14;14;14;14;14;14;
   14;14;14;14;14;14;14;14;14;14;14;14;14;14;14;14;14;14;14;14;14;14;14;14;14;14;14;14;14;14;14;14;14;14;14;14;14;14;
   14;14;14;14;14;14;14;14;14;14;14;14;14;14;14;14;14;14;14;14;14;14;14;14;14;14;14;14;14;14;14;14;14;14;56;56;56;56;
   56;56;56;56;56;56;56;56;14;14;14;14;14;14;14;14;14;14;14;14;14;14;14;56;56;14;14;14;14;14;14;14;14;14;14;14;14;14;
   14;14;56;14;14;14;14;14;14;14;14;14;14;14;14;14;14;14;56;14;14;14;14;14;14;14;14;14;14;14;14;14;14;14;14;14;14;14;
   14;14;14;14;14;14;14;14;14;14;14;14;14;14;14;14;14;14;56;56;56;56;56;56;56;56;56;56];
  [18;18;18;18;18;18;18;18;18;18;18;18;18;14;14;14;14;14;14;14;14;14;14;14;14;14;14;14;14;14;14;14;14;14;14;14;14;14;
   14;14;14;14;14;14;14;14;14;14;151;151;151;151;151;151;151;151;151;151;151;151;151;151;151;151;151;151;151;151;151;
   151;151;151;151;151;14;14;14;14;14;14;151;151;151;151;151;151;151;151;151;151;151;151;151;151;151;151;151;151;151;
   151;151;151;151;151;151;151;14;14;14;14;14;14;151;151;151;151;151;151;151;151;151;151;151;151;151;151;151;151;151;
   151;151;151;151;151;151;151;151;151;14;14;14;14;14;14;14;14;14;14;14;14;14;14;14;14;14;14;14;14;14;14;14;14;14;14;
   14;14;14;14;14;14;14;14;14;14;56;56;56;56;56;56;56;56;56;56;56;56;56;56;56;56;56;56;56;56;56;56;56;56;56;56;56;56;
   56;56;56;56;56;56;56;56;56;56;56;56;56;56;56;56;56;56;56;56;56;56;56;56;56;56;56;56;14;14;14;14;14;14;14;14;14;14;
   14;14;14;14;14;14;14;14;14;14;14;14;14;14;14;14];
  [14;14;14;56;56;56;56;56;56;56;56;56;56;56;56;56;14;14;14;14;14;14;14;14;14;14;14;14;14;14;14;14;14;14;14;14;14;14;
   14;14;14;14;14;14;14;14;14;14;14;14;14;14;14;14;14;14;14;14;14;14;56;56;56;56;14;14;14;14;14;14;14;14;14;56;56;56;
   56;56;56;56;14;14;56;56;56;56;56;56;56;56;56;56;56;56;56;56;14;14;14;14;14;14;56;56;56;56;56;56;56;56;56;56;56;56;
   56;56;56;56;56;56;56;56;56;56;56;56;56;56;56;56;56;56;56;56;56;56;56;56;56;56;56;56;56;56;56;56;56;56;56;56;56;56;
   56;56;56;56;56;56;56;56;56;56;56;56;56;56;56;56;56;56;56;56;56;56;56;56;56;56;56;56;56;56;56;56;56;56;56;56;56;56;
   56;56;56;56;56;56;56;56;56;56;56;56;56;56;56;56;56;56;56;56;56;56;56;56;56;56;56;56;56;56;56;56;56;56;56;56;56;56;
   56;56;56;56;56;56;56;56;56;56;56;56;56;56;56;56;56;56;56;56;56;56;56;56;56;56;56;56];
  [14;14;14;14;14;14;14;14;14;14;14;14;14;14;14;14;14;14;14;14;14;14;14;14;14;14;14;14;14;14;14;14;14;14;14;14;14;14;
   14;14;14;14;14;14;14;14;14;14;14;14;14;14;14;14;14;14;14;14;14;14;14;14;14;14;14;14;14;14;14;14;14;14;14;14;14;14;
   14;14;14;14;14;14;14;14;14;14;14;14;14;14;14;14;14;14;14;14;14;14;14;14;14;14;14;14;14;14;14;14;14;14;14;14;14;14;
   14;14;14;14;14;14;14;14;14;14;14;14;14;14;14;14;14;14;14;14;14;14;14;14;14;14;14;14;14;14;14;14;14;14;14;14;14;14;
   14;14;14;14;14;14;14;14;14;14;14;14;14;14;14;14;14;14;14;14;14;14;14;14;14;14;14;14;14;14;14;14;14;14;14;14;14;14;
   14;14;14;14;14;14;14;14;14;14;14;14;14;14;14;14;14;14;14;14;14;14;14;14;14;14;14;14;14;14;14;14;14;14;14;14;14;14;
   14;14;14;14;14;14;14;14;14;14;14;14;14;14;14;14;14;14;14;14;14;14;14;11;11;11;11;11];
  [14;14;14;14;14;14;14;14;14;14;14;14;14;14;14;14;14;14;14;14;14;14;14;14;14;14;14;14;14;14;14;14;14;14;14;14;14;14;
   14;14;14;14;14;14;14;14;14;14;14;14;14;14;14;14;14;14;14;14;14;14;14;14;14;14;14;14;14;14;14;14;14;14;14;14;14;14;
   14;14;14;14;14;14;14;14;14;14;14;14;14;14;14;14;14;14;14;14;14;14;14;14;14;14;14;14;14;14;14;14;14;14;14;14;14;14;
   14;14;14;14;14;14;14;14;14;14;14;14;14;14;14;14;14;14;14;14;14;14;14;14;14;14;14;14;14;14;14;14;14;14;14;14;14;14;
   14;14;14;14;14;14;14;14;14;14;14;14;14;14;14;14;14;14;14;14;14;14;14;14;14;14;14;14;14;14;14;14;14;14;14;14;14;14;
   14;14;14;14;14;14;14;14;14;14;14;14;14;14;14;14;14;14;14;14;14;14;14;14;14;14;56;56;56;56;14;14;14;14;14;14;14;14;
   14;14;14;14;14;14;14;14;14;56;56;56;14;14;14;14;14;14;14;14;14;14;14;14;14;56;56;56];
  [14;14;14;14;14;14;14;14;14;14;14;14;14;14;14;14;14;14;14;14;14;14;14;14;14;14;14;14;14;14;14;14;14;14;14;14;14;14;
   14;14;14;14;14;14;14;14;14;14;14;14;14;14;14;14;14;14;14;14;14;14;14;14;14;14;14;14;14;14;14;14;14;14;14;14;14;14;
   14;14;14;14;14;14;14;14;14;14;14;14;14;14;14;14;14;14;14;14;14;14;14;14;14;14;14;14;14;14;14;14;14;14;14;14;14;14;
   14;14;14;14;14;56;56;56;56;14;14;14;14;14;14;14;14;14;14;14;14;14;14;14;14;14;14;14;14;14;14;14;14;14;14;14;14;14;
   14;14;14;14;14;14;14;14;14;14;14;14;14;14;14;14;14;14;14;14;14;14;14;14;14;14;14;14;14;14;14;14;14;14;14;14;14;14;
   14;14;14;14;14;14;14;14;14;14;14;14;14;14;14;14;14;14;14;14;14;14;14;14;14;14;14;14;56;56;56;56;56;56;14;14;14;14;
   14;14;14;14;14;14;14;14;56;56;56;56;14;56;56;56;56;56;56;56;56;56;56;56;56;56;56;56];
  [14;14;14;14;14;14;14;14;14;14;14;14;56;56;56;56;14;14;14;14;14;14;14;14;14;14;14;14;14;14;14;14;14;14;14;14;14;14;
   14;14;14;14;14;14;14;14;14;14;14;14;14;14;14;14;14;14;14;14;14;14;14;14;14;14;14;14;14;14;14;14;14;14;56;56;56;56;
   56;56;56;56;14;14;14;14;14;14;14;14;14;14;56;56;56;56;56;56;14;14;14;14;14;14;14;14;14;14;14;14;14;14;14;14;14;14;
   14;14;14;14;14;14;14;14;14;14;14;14;14;14;14;14;14;14;14;14;14;14;56;56;56;56;56;56;56;56;14;14;14;14;14;14;14;14;
   14;14;14;14;14;14;14;14;14;14;14;14;14;14;14;14;14;14;14;14;14;14;56;56;14;14;56;56;56;56;56;56;56;56;56;56;56;56;
   56;56;56;56;56;56;56;56;56;56;56;56;56;56;56;56;56;56;56;56;56;56;56;56;56;56;56;56;56;56;56;56;56;56;56;56;56;56;
   56;56;56;56;56;56;56;56;56;56;56;56;56;56;56;56;56;56;56;56;56;56;56;56;56;56;56;56];
  [14;14;14;14;14;14;14;14;14;14;14;14;14;14;14;14;14;14;14;14;14;14;14;14;14;14;14;14;14;14;14;14;14;14;14;14;14;14;
   14;14;14;14;14;14;14;14;14;14;14;14;14;14;14;14;14;14;14;14;14;14;14;14;14;14;14;14;14;14;14;14;14;14;14;14;14;14;
   14;14;14;14;14;14;14;14;56;56;56;56;56;56;56;56;56;56;56;56;14;14;14;14;14;14;14;14;14;14;14;14;14;14;56;56;14;14;
   14;14;14;14;14;14;14;14;14;14;14;56;56;56;14;14;14;14;14;14;14;14;14;56;56;56;56;56;56;56;14;14;14;14;14;14;14;14;
   14;14;14;14;14;14;14;14;14;14;14;14;14;14;14;14;14;14;14;14;14;14;14;14;14;14;14;14;14;14;14;14;14;14;14;14;14;14;
   56;14;14;14;14;14;14;14;56;56;56;56;56;56;56;56;14;14;14;14;14;14;14;14;14;14;14;14;14;14;56;56;56;56;14;14;14;14;
   14;14;14;14;14;56;56;56;56;56;56;56;14;14;14;14;14;14;14;14;14;56;56;56;56;56;56;56];
  [14;14;14;14;14;14;14;14;14;14;14;14;14;14;14;14;14;14;14;14;14;14;14;14;14;14;14;14;14;14;14;14;14;14;14;14;14;14;
   14;14;14;14;14;14;14;14;14;14;14;14;14;14;14;14;14;14;14;14;14;14;14;14;14;14;14;14;14;14;14;14;14;14;14;14;14;14;
   14;14;14;14;14;14;14;14;14;14;14;14;14;14;14;14;14;14;14;14;14;14;14;14;14;14;14;14;14;14;14;14;14;14;14;14;14;14;
   14;14;14;14;14;14;14;14;14;14;14;14;14;14;14;14;14;14;14;14;14;14;14;14;14;14;14;14;14;14;14;14;14;56;14;14;14;14;
   14;14;14;14;14;14;14;14;14;14;14;14;14;14;14;14;14;14;14;14;14;14;14;14;14;14;14;14;14;14;14;14;14;14;14;14;14;14;
   14;14;14;14;14;14;14;14;14;14;14;14;14;56;56;56;56;56;56;56;56;56;56;56;56;56;56;56;56;56;56;56;56;56;56;56;56;56;
   56;56;56;56;56;56;56;56;56;56;56;56;9;9;9;9;9;9;9;9;9;9;56;56;56;56;56;56];
  [40;40;40;40;40;40;40;40;40;40;40;40;40;40;40;40;40;40;40;40;40;40;40;40;40;40;40;40;40;40;40;40;40;40;40;40;40;40;
   40;40;40;40;40;40;40;40;40;40;40;40;40;40;40;40;40;40;40;40;40;40;40;40;40;40;40;40;40;40;40;40;40;40;40;40;40;40;
   40;40;40;40;40;40;40;40;40;40;40;40;40;40;40;40;40;40;40;40;40;40;40;40;40;40;40;40;40;40;40;40;40;40;40;40;40;40;
   40;40;40;40;40;40;40;40;40;40;40;40;40;40;40;40;40;40;40;40;40;40;40;40;40;40;40;40;40;40;40;40;40;40;40;40;40;40;
   40;40;40;40;40;40;40;40;40;40;40;40;40;40;40;40;40;40;40;40;40;40;40;40;40;40;40;40;40;40;40;40;40;40;40;40;40;40;
   40;40;40;40;40;40;40;40;40;40;40;40;40;40;40;40;40;40;40;40;40;40;40;40;40;40;40;40;40;40;40;40;40;40;56;56;56;56;
   56;56;56;56;56;56;56;56;56;56;56;56;56;56;56;56;56;56;56;56;56;56;56;56;56;56;56;56];
  [40;40;40;40;40;40;40;40;40;40;40;40;40;40;40;40;40;40;40;40;40;40;40;40;40;40;40;40;40;40;40;40;40;40;40;40;40;40;
   40;40;40;40;40;40;40;40;40;40;40;40;40;40;40;40;40;40;40;40;56;56;56;56;56;56;40;40;40;40;40;40;40;40;40;40;40;40;
   40;40;40;40;40;40;40;40;40;40;40;40;40;40;40;40;40;40;40;40;40;40;40;40;40;40;40;40;40;40;40;40;40;40;40;40;40;40;
   40;40;40;40;40;40;40;40;40;40;40;40;40;40;40;40;40;40;40;40;40;40;40;40;40;40;40;40;40;40;40;40;40;40;40;40;40;40;
   40;40;40;40;40;40;40;40;40;40;40;40;40;40;40;40;40;40;40;40;40;40;40;40;40;40;40;40;40;40;40;40;40;40;40;40;40;40;
   40;40;40;40;40;40;40;40;40;40;40;40;40;40;40;40;40;40;40;40;40;40;40;40;40;40;40;40;40;40;40;40;40;40;40;40;40;40;
   40;40;40;40;40;40;40;40;40;40;40;40;40;40;40;40;40;40;40;40;40;40;40;40;40;40;40;40];
  [40;40;40;40;40;40;40;40;40;40;40;40;40;40;40;40;40;40;40;40;40;40;40;40;40;40;40;40;40;40;56;56;40;40;40;40;40;40;
   40;40;40;40;40;40;40;40;40;40;40;40;40;40;40;40;40;40;40;40;40;40;40;40;40;40;40;40;40;40;40;40;40;40;40;40;40;40;
   40;40;40;40;40;40;40;40;40;40;40;40;40;40;40;40;40;40;40;40;40;40;40;40;40;40;40;40;40;40;40;40;40;40;40;40;40;40;
   40;40;40;40;40;40;40;40;40;40;40;40;40;40;40;40;40;40;40;40;40;40;40;40;40;40;40;40;40;40;40;40;40;40;40;40;40;40;
   40;40;40;40;40;40;40;40;40;40;40;40;40;40;40;40;40;40;40;40;40;40;40;40;40;40;40;40;40;40;40;40;40;40;40;40;40;40;
   40;40;40;40;40;40;40;40;40;40;40;40;40;40;40;40;40;40;40;40;40;40;40;40;40;40;40;40;40;40;40;40;40;40;40;40;40;40;
   40;40;40;40;40;40;40;40;40;40;40;40;40;40;40;40;40;40;40;40;40;40;40;40;40;40;40;40];
  [40;40;40;40;40;40;40;40;40;40;40;40;40;40;40;40;40;40;40;40;40;40;40;40;40;40;40;40;40;40;40;40;40;40;40;40;40;40;
   40;40;40;40;40;40;40;40;40;40;40;40;40;40;40;40;40;40;40;40;40;40;40;40;40;40;40;40;40;40;40;40;40;40;40;40;40;40;
   40;40;40;40;40;40;40;40;40;40;40;40;40;40;40;40;40;40;40;40;40;40;40;40;40;40;40;40;40;40;40;40;40;40;40;40;40;40;
   40;40;40;40;40;40;40;40;40;40;40;40;40;40;40;40;40;40;40;40;40;40;40;40;40;40;40;40;40;40;40;40;40;40;40;40;40;40;
   40;40;40;40;40;40;40;40;40;40;56;56;56;56;56;56;56;56;56;56;56;56;56;56;40;40;40;40;40;40;40;40;40;40;40;40;40;40;
   40;40;40;40;40;40;40;40;40;40;40;40;40;40;40;40;40;40;40;40;40;40;40;40;40;40;40;40;40;40;40;40;40;40;40;40;40;40;
   40;40;40;40;40;40;40;40;40;40;40;40;40;40;40;40;40;40;40;40;40;40;40;40;40;40;40;40];
  [40;40;40;40;40;40;40;40;40;40;40;40;40;40;40;40;40;40;40;40;40;40;40;40;40;40;40;40;40;40;40;40;40;40;40;40;40;40;
   40;40;40;40;40;40;40;40;40;40;40;40;40;40;40;40;40;40;40;40;40;40;40;40;40;40;40;40;40;40;40;40;40;40;40;40;40;40;
   40;40;40;40;40;40;40;40;40;40;40;40;40;40;40;40;40;40;40;40;40;40;40;40;40;40;40;40;40;40;40;40;40;40;40;40;40;40;
   40;40;40;40;40;40;40;40;40;40;40;40;40;40;40;40;40;40;40;40;40;40;40;40;40;40;40;40;40;40;40;40;40;40;40;40;40;40;
   40;40;40;40;40;40;40;40;40;40;40;40;40;40;40;40;40;40;40;40;40;40;40;40;40;40;40;40;40;40;40;40;40;40;40;40;40;40;
   40;40;40;40;40;40;40;40;40;40;40;40;40;40;40;40;40;40;40;40;40;40;40;40;40;40;40;40;40;40;40;40;40;40;40;56;56;56;
   56;56;56;56;56;56;56;56;56;56;56;56;56;56;56;56;56;56;56;56;56;56;56;56;56;56;56;56];
  [40;40;40;40;40;40;40;40;40;40;40;40;40;40;40;40;40;40;40;40;40;40;40;40;40;40;40;40;40;40;56;56;56;56;56;56;56;56;
   56;56;56;56;56;56;56;56;56;56;56;56;56;56;56;56;56;56;56;56;56;56;56;56;56;56;56;56;56;56;56;56;56;56;56;56;56;56;
   56;56;56;56;56;56;56;56;56;56;56;56;56;56;56;56;56;56;56;56;56;56;56;56;56;56;56;56;56;56;56;56;56;56;56;56;56;56;
   56;56;56;56;56;56;56;56;56;56;56;56;56;56;56;56;56;56;56;56;56;56;56;56;56;56;56;56;56;56;56;56;56;56;56;56;56;56;
   56;56;56;56;56;56;56;56;56;56;56;56;56;56;56;56;56;56;56;56;56;56;56;56;56;56;56;56;56;56;56;56;56;56;56;56;56;56;
   56;56;56;56;56;56;56;56;56;56;56;56;56;56;56;56;56;56;56;56;56;56;56;56;56;56;56;56;56;56;56;56;56;56;56;56;56;56;
   56;56;56;56;56;56;56;56;56;56;56;56;56;56;56;56;56;56;56;56;56;56;56;56;56;56;56;56];
  [40;40;40;40;40;40;40;40;40;40;40;40;40;40;40;40;40;40;40;40;40;40;40;40;40;40;40;40;40;40;40;40;40;40;40;40;40;40;
   40;40;40;40;40;40;40;40;40;40;40;40;40;40;40;40;40;40;40;40;40;40;40;40;40;40;40;40;40;40;40;40;40;40;40;40;40;56;
   56;56;56;56;40;40;40;40;40;40;40;40;40;40;40;40;40;40;40;40;40;40;40;40;40;40;40;40;40;40;40;40;40;40;40;40;40;40;
   40;40;40;40;40;40;40;40;40;40;40;40;40;40;40;40;40;40;40;40;40;40;40;40;40;40;40;40;40;40;40;40;40;40;40;40;40;40;
   40;40;40;40;40;40;40;40;40;40;40;40;40;40;40;40;40;40;40;40;40;40;40;40;40;40;40;40;40;40;40;40;40;40;40;40;40;40;
   40;40;40;40;40;40;40;40;40;40;40;40;40;40;40;40;40;40;40;40;40;40;40;40;40;40;40;40;40;40;40;40;40;40;40;40;40;40;
   40;40;40;40;40;40;40;40;40;40;40;40;40;40;40;40;40;40;40;40;40;40;40;40;40;40;40;40];
  [40;40;40;40;40;40;40;40;40;40;40;40;40;40;40;40;40;40;40;40;40;40;40;40;40;40;40;40;40;40;40;40;40;40;40;40;40;40;
   40;40;40;40;40;40;40;40;40;40;40;40;40;40;40;40;40;40;40;40;40;40;40;40;40;40;40;40;40;40;40;40;40;40;40;40;40;40;
   40;40;40;40;40;40;40;40;40;40;40;40;40;40;40;40;40;40;40;40;40;40;40;40;40;40;40;40;40;40;40;40;40;40;40;40;40;40;
   40;40;40;40;40;40;40;40;40;40;40;40;40;40;40;40;40;40;40;40;40;40;40;40;40;40;40;40;40;40;40;40;40;40;40;40;40;40;
   40;40;40;40;40;40;40;40;40;40;40;40;40;40;40;40;40;40;40;40;40;40;40;40;56;56;56;56;56;56;56;56;56;56;56;56;56;56;
   56;56;56;56;56;56;56;56;56;56;56;56;56;56;56;56;56;56;56;56;56;56;56;56;56;56;56;56;56;56;56;56;56;56;56;56;56;56;
   56;56;56;56;56;56;56;56;56;56;56;56;56;56;56;56;56;56;56;56;56;56;56;56;56;56;56;56];
  [56;17;56;56;56;56;56;56;56;56;56;56;56;56;56;56;56;56;56;56;56;56;56;56;56;56;56;56;56;56;56;56;17;17;17;17;17;17;
   17;17;17;17;17;17;17;17;17;17;17;17;17;17;17;17;17;17;17;17;17;17;17;17;17;17;17;17;17;17;17;17;17;17;17;17;17;17;
   17;17;17;17;17;17;17;17;17;17;17;17;17;17;17;17;17;17;17;17;17;17;17;17;17;17;17;17;17;17;17;17;17;17;17;17;17;17;
   17;17;17;17;17;17;17;17;17;17;17;17;17;17;56;56;56;56;56;56;56;56;56;56;56;56;56;56;56;56;56;56;56;56;56;56;56;56;
   56;56;56;56;56;56;56;56;56;56;56;56;56;56;56;56;56;56;56;56;56;56;56;56;56;56;56;56;56;56;56;56;56;56;56;56;56;56;
   56;56;56;56;56;56;56;56;56;56;56;56;56;56;56;56;56;56;56;56;56;56;56;56;56;56;56;56;56;56;56;56;56;56;56;56;56;56;
   56;56;56;56;56;56;56;56;56;56;56;56;56;56;56;56;56;56;56;56;56;56;56;56;56;56;56;56];
  [54;54;54;54;54;54;54;54;54;54;54;54;54;54;54;54;54;54;54;54;54;54;54;54;54;54;54;54;54;54;54;54;54;54;54;54;54;54;
   54;54;54;54;54;54;54;54;54;54;54;54;54;54;54;54;54;54;54;54;54;54;54;54;54;54;54;54;54;54;54;54;54;54;54;54;54;54;
   54;54;54;54;54;54;54;54;54;54;54;54;54;54;54;54;54;54;54;54;54;54;54;54;54;54;54;54;54;54;54;54;54;54;54;54;54;54;
   54;54;54;54;54;54;54;54;54;54;54;54;54;54;54;54;54;54;54;54;54;54;54;54;54;54;54;54;54;54;54;54;54;54;54;54;54;54;
   54;54;54;54;54;54;54;54;54;54;54;54;54;54;54;54;54;54;54;54;54;54;54;54;54;54;54;54;54;54;54;54;54;54;54;54;54;54;
   54;54;54;54;54;54;54;54;54;54;54;54;54;54;54;54;54;54;54;54;54;54;54;54;54;54;54;54;54;54;54;54;54;54;54;54;54;54;
   54;54;54;54;54;54;54;54;54;54;54;54;56;56;56;56;56;56;56;56;56;56;56;56;56;56;56;56];
  [145;145;145;145;145;145;145;145;145;145;145;145;145;145;145;145;145;145;145;145;145;145;145;145;145;145;145;145;
   145;145;145;145;145;145;145;145;145;145;145;145;145;145;145;145;145;145;145;145;145;145;145;145;145;145;145;145;
   145;145;145;145;145;145;145;145;145;145;145;145;145;145;145;145;145;145;145;145;145;145;145;145;145;145;145;145;
   145;145;145;145;145;145;145;145;145;145;145;145;145;145;145;145;145;145;145;145;145;145;145;145;145;145;145;145;
   145;145;145;145;145;145;145;145;145;145;145;145;145;145;145;145;145;145;145;145;145;145;145;145;145;145;145;145;
   145;145;145;145;145;145;145;145;145;145;145;145;145;145;145;145;145;145;145;145;145;145;145;145;145;145;145;145;
   145;145;145;145;145;145;145;145;145;145;145;145;145;145;145;145;145;145;145;145;145;145;145;145;145;145;145;145;
   145;145;145;145;145;145;145;145;145;145;145;145;145;145;145;145;145;145;145;145;145;145;145;145;145;145;145;145;
   145;145;145;145;145;145;145;145;145;145;145;145;145;145;145;145;145;145;145;145;145;145;145;145;145;145;145;145;
   145;145;56;56]].

(** unicode_database.hpp:65 [category]: 152 entries. *)
Definition category : list category_t := [
  Cc;Cc;Zs;Po;Sc;Ps;Pe;Sm;Pd;Nd;Lu;Sk;Pc;Ll;So;Lo;Pi;Cf;No;Ll;Po;Pf;Lu;Lu;Lu;Ll;Lu;Lu;Lu;Lu;Lu;Lu;Lu;Lu;Lu;Lu;Lu;Lu;
  Lu;Lu;Lo;Lu;Lt;Lu;Lu;Lu;Lu;Lu;Lu;Lu;Lu;Lu;Lm;Lm;Mn;Mn;Cn;Lm;Lu;Lu;Lu;Lu;Lu;Ll;Lu;Ll;Ll;Ll;Ll;Ll;Ll;Lu;Ll;Lu;Lu;Me;
  Lu;Lu;Mn;Mc;Lo;Mc;Lu;No;Ll;Nl;Mn;Ll;Ll;Ll;Ll;Ll;Ll;Ll;Ll;Lu;Ll;Lu;Lu;Lt;Lu;Lt;Ll;Lu;Lu;Lu;Lu;Lu;Cf;Zl;Zp;Sm;Lu;Lu;
  Lu;So;Lu;Nl;Nl;So;So;Lu;Lu;Lu;Lu;Lu;Lu;Lu;Lu;Lm;Lu;Lu;Lu;Lu;Lu;Lu;Lu;Lu;Lu;Lu;Lu;Lu;Lu;Ll;Cs;Co;Lo;Lm;Lu;Lu;Lu;So].

(** unicode_database.hpp:80 [binary_properties]: 152 entries. *)
Definition binary_properties : list N := [
  0;1;1;0;0;0;0;0;0;64;108;0;64;116;0;116;0;0;0;116;64;0;108;108;108;116;108;108;108;108;108;108;108;108;108;108;108;
  108;108;108;100;108;100;108;108;108;108;108;108;108;108;108;116;100;64;84;0;20;108;108;108;108;108;116;108;116;116;
  116;116;116;116;108;116;108;108;0;108;108;68;68;68;64;108;64;116;100;100;116;116;116;116;116;116;116;116;108;116;
  108;108;100;108;100;116;108;108;108;108;108;2;1;1;96;108;108;108;96;108;108;116;12;20;108;108;108;108;108;108;108;
  108;4;108;108;108;108;108;108;108;108;108;108;108;108;108;116;0;0;4;68;108;108;108;12].

(** unicode_database.hpp:82 [case_folding_offset]: 152 entries. *)
Definition case_folding_offset : list Z := [
  0;0;0;0;0;0;0;0;0;0;32;0;0;0;0;0;0;0;0;775;0;0;1;0;(-121);(-268);210;206;205;79;202;203;207;211;209;213;214;218;217;
  219;0;2;1;(-97);(-56);(-130);10795;(-163);10792;(-195);69;71;0;0;0;116;0;0;116;38;37;64;63;1;8;(-30);(-25);(-15);
  (-22);(-54);(-48);(-60);(-64);(-7);80;0;15;48;0;0;0;0;7264;0;(-8);0;0;(-6222);(-6221);(-6212);(-6210);(-6211);
  (-6204);(-6180);35267;(-3008);(-58);(-7615);(-8);(-8);(-74);(-9);(-7173);(-86);(-100);(-112);(-128);(-126);0;0;0;0;
  (-7517);(-8383);(-8262);0;28;16;0;26;0;(-10743);(-3814);(-10727);(-10780);(-10749);(-10783);(-10782);(-10815);0;
  (-35332);(-42280);(-42308);(-42319);(-42315);(-42305);(-42258);(-42282);(-42261);928;(-48);(-42307);(-35384);
  (-38864);0;0;0;0;40;39;34;0]%Z.
