(** Sample grammars for the examples beside the theorems about the rule engine. *)
From Verif Require Import Prelude RuleModel.
From Coq Require Import String Ascii.
Close Scope N_scope.
Close Scope string_scope.

Bind Scope string_scope with string.
Definition str (s : string) : list N := List.map (fun a => N_of_ascii a) (list_ascii_of_string s).
Definition lit (s : string) : rule := RTok (lit_tok (KUser 0) (TUser 0) (str s)).
Definition digit : rule :=
  RTok (class_tok (KUser 1) (TUser 1) (fun u => (48 <=? u)%N && (u <=? 57)%N)).
Definition plain (r : rule) : production := Production r false None true 10.
Definition spaced (r : rule) : production := Production r false (Some (lit " ")) false 10.

(** value, ... with whitespace; a value is a digit or a value in parentheses, and a broken value
    is skipped up to the closing parenthesis. *)
Definition values (p : nat) : production :=
  match p with
  | 0 => spaced (RSeq [RLst (RProd 1) (Some (lit ",", SErr TTrailing)); REof])
  | _ => plain (RChc [RCap digit;
                      RBr (lit "(") [RTryT None (RRec 1 TDepth) (Some (RFind (lit_finder (str ")") [])));
                                     lit ")"]])
  end.

(** A production made of a find rule: skips to a semicolon. *)
Definition only_find (p : nat) : production := plain (RFind (lit_finder (str ";") [])).

(** A grammar whose rule is another grammar. *)
Definition outer (p : nat) : production :=
  match p with 0 => plain (RSeq [lit "["; RSub 1; lit "]"]) | _ => plain digit end.
