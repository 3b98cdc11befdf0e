(** Model of include/lexy_ext/parse_tree_doctest.hpp: a description of a parse tree, and the
    comparison of a parse tree with it.

    [doctest::String] is a list of characters.  The input has a character type of eight bits,
    which is signed ([char]) or not ([unsigned char], [char8_t]); its values are written as bytes. *)
From Coq Require Import String Ascii ZArith.
From Verif Require Import Prelude CodecModel LitModel RuleModel PtModel VisModel TvModel.
Close Scope string_scope.
Open Scope N_scope.

(** [std::isprint(c)], l.42, in the "C" locale; [None]: the value of a signed character is
    negative and not [EOF], so that the behaviour is undefined. *)
Definition isprint (signed : bool) (c : N) : option bool :=
  if c <? 0x80 then Some ((0x20 <=? c) && (c <=? 0x7E))
  else if signed && negb (c =? 0xFF) then None
  else Some false.

(** [unsigned(c)], l.50. *)
Definition as_unsigned (signed : bool) (c : N) : N :=
  if signed && (0x80 <=? c) then c + (2 ^ 32 - 2 ^ 8) else c.

(** ["%x"] for values below 256. *)
Definition hex_digit (d : N) : N := if d <? 10 then 0x30 + d else 0x61 + (d - 10).
Definition hex (n : N) : list N :=
  if n <? 16 then [hex_digit n] else [hex_digit (n / 16); hex_digit (n mod 16)].

(** l.36-54: a character of a token. *)
Definition spell (signed : bool) (c : N) : option (list N) :=
  if c =? 0x22 then Some [0x5C; 0x22]
  else
    match isprint signed c with
    | None => None
    | Some true => Some [c]
    | Some false => Some ([0x5C; 0x7B] ++ hex (as_unsigned signed c mod 0xFF) ++ [0x7D])
    end.
Fixpoint spell_all (signed : bool) (cs : list N) : option (list N) :=
  match cs with
  | [] => Some []
  | c :: cs' =>
    match spell signed c, spell_all signed cs' with
    | Some a, Some b => Some (a ++ b)
    | _, _ => None
    end
  end.

(** l.17-20, 141-142: the members. *)
Record desc := Desc { d_tree : list N; d_level : Z }.
Definition empty_desc : desc := Desc [0x0A] 0.

(** l.128-139 [prefix]. *)
Definition spaces (n : nat) : list N := repeat 0x20 n.
Definition prefix (level : Z) : list N :=
  spaces 12 ++
  (if (0 <? level)%Z then concat (repeat (str "  ") (Z.to_nat (level - 1))) ++ str "- " else []).

(** The calls of a description: l.30-57 [token], l.87-96 [production], l.103-107 [finish].  Token
    kinds are only used by name. *)
Inductive call := CToken (kind spelling : list N) | CProduction (name : list N) | CFinish.
Definition do_call (signed : bool) (d : desc) (c : call) : option desc :=
  match c with
  | CToken kind spelling =>
    match spell_all signed spelling with
    | None => None
    | Some s => Some (Desc (d_tree d ++ prefix (d_level d) ++ kind ++ str ": """ ++ s ++ str """" ++ [0x0A]) (d_level d))
    end
  | CProduction name =>
    Some (Desc (d_tree d ++ prefix (d_level d) ++ name ++ str ":" ++ [0x0A]) (d_level d + 1))
  | CFinish => Some (Desc (d_tree d) (d_level d - 1))
  end.
Fixpoint do_calls (signed : bool) (d : desc) (cs : list call) : option desc :=
  match cs with
  | [] => Some d
  | c :: cs' => match do_call signed d c with Some d => do_calls signed d cs' | None => None end
  end.

(** l.58-66 [token(kind, spelling)]: the characters up to the first zero; [None]: there is none
    in the array. *)
Fixpoint c_string (mem : list N) : option (list N) :=
  match mem with
  | [] => None
  | c :: mem' => if c =? 0 then Some [] else option_map (cons c) (c_string mem')
  end.

(** l.109-112 [toString]. *)
Definition to_string (d : desc) : list N := d_tree d ++ spaces 9.

Section Names.
Variables (token_name : tkind -> list N) (production_name : nat -> list N).
Variables (signed : bool) (inp : list N).

(** l.157-172: the loop of [convert]. *)
Definition node_call (m : memory) (x : titer) : option call :=
  let (event, node) := x in
  match event with
  | Enter => option_map CProduction (kind_name token_name production_name m node)
  | Exit => Some CFinish
  | Leaf =>
    match kind_name token_name production_name m node, lexeme_units inp m node with
    | Some k, Some us => Some (CToken k us)
    | _, _ => None
    end
  end.
Fixpoint convert_loop (m : memory) (d : desc) (l : list titer) : option desc :=
  match l with
  | [] => Some d
  | x :: l' =>
    match node_call m x with
    | None => None
    | Some c => match do_call signed d c with Some d => convert_loop m d l' | None => None end
    end
  end.
(** l.153-175 [convert].  The fuel is for walking through the tree. *)
Definition convert (fuel : nat) (t : tree) : option (list N) :=
  match (match p_root t with None => Some [] | Some r => traverse fuel (b_mem (p_buf t)) r end) with
  | None => None
  | Some l => option_map to_string (convert_loop (b_mem (p_buf t)) empty_desc l)
  end.

(** l.114-131 [operator==]. *)
Definition same_text (a b : list N) : bool := if list_eq_dec N.eq_dec a b then true else false.
Definition equal (fuel : nat) (cs : list call) (t : tree) : option bool :=
  match do_calls signed empty_desc cs, convert fuel t with
  | Some d, Some s => Some (same_text (to_string d) s)
  | _, _ => None
  end.
End Names.
