(** Model of dsl/follow.hpp: a literal with a condition on the character after it. *)
From Verif Require Import Prelude CodecModel LitModel ClassModel.
Open Scope N_scope.

Section Fol.
(** code_point.hpp:269-277: the case folding function, see LitModel.v. *)
Variable fold : N -> N.

(** The literal inside: a plain one (dsl/literal.hpp:50-59, 352-377) or one with case folding
    (dsl/case_folding.hpp:45-68 [_cfl::tp]).  The result is whether it matched and its [end].
    The input is a range input (no word access).  Unicode case folding does not compile for
    the default encoding: the pair returned for it is arbitrary. *)
Definition nf_literal (f : folding) (E : lenc) (inp cs : list N) (pos : nat) : bool * nat :=
  match f with
  | NoFold => lit_try (raw E inp) cs pos
  | AsciiFold => cfl_ascii E inp cs pos
  | UnicodeFold => match E with Enc e => cfl_unicode fold e inp cs pos | Default => (false, pos) end
  end.

(** dsl/follow.hpp:69-79: the units the reader given to the char class delivers: the reader is
    reset to the literal's end and, for a literal with case folding, wrapped once more.  A char
    class looks at no more than four units. *)
Definition nf_next (f : folding) (E : lenc) (inp : list N) (end_ : nat) : list N :=
  match f with
  | NoFold => units 4 E (raw E inp) end_                                       (* l.71-74 *)
  | AsciiFold => units 4 E (acf (raw E inp)) end_                              (* l.75-79 *)
  | UnicodeFold =>
    match E with
    | Enc Utf32 => units 4 E (suc32 fold (raw E inp)) end_
    | Enc e => units 4 E (sucm fold e (raw E inp)) (sucm_fill fold e (raw E inp) end_)
    | Default => []
    end
  end.

(** The token parser's members, dsl/follow.hpp:51-53; [nf_impl_end] is [impl.end]. *)
Record nf_state := NfState { nf_end : nat; nf_success : bool; nf_impl_end : nat }.

(** dsl/follow.hpp:59-80 [_nf::tp::try_parse].  When the literal fails, [end] keeps the value
    of the constructor (l.55-57): the position where the token begins. *)
Definition nf_try (f : folding) (E : lenc) (cs : list N) (cc : cclass) (inp : list N) (pos : nat)
  : bool * nf_state :=
  let '(ok, impl_end) := nf_literal f E inp cs pos in
  if ok then                                                                   (* l.64-67 *)
    (match class_try E cc (nf_next f E inp impl_end) with Some _ => false | None => true end,
     NfState impl_end true impl_end)
  else (false, NfState pos false impl_end).

(** The errors of dsl/literal.hpp:366-376 and dsl/follow.hpp:91-93. *)
Inductive nf_error :=
| ExpectedLiteral (at_ index len : nat)
| FollowRestriction (begin_ end_ : nat).

(** dsl/follow.hpp:82-95 [report_error]. *)
Definition nf_report (cs : list N) (pos : nat) (s : nf_state) : nf_error :=
  if nf_success s then FollowRestriction (nf_end s) (nf_end s)
  else let '(b, i, n) := lit_error pos cs (nf_impl_end s) in ExpectedLiteral b i n.

(** dsl/token.hpp:73-101 [token_parse], seen by the user: the token matched
    up to a position, or it failed with an error, an error token ending at [end]. *)
Inductive nf_result := Matched (end_ : nat) | Failed (e : nf_error) (end_ : nat).
Definition nf_parse (f : folding) (E : lenc) (cs : list N) (cc : cclass) (inp : list N) (pos : nat)
  : nf_result :=
  let '(ok, s) := nf_try f E cs cc inp pos in
  if ok then Matched (nf_end s) else Failed (nf_report cs pos s) (nf_end s).

(** dsl/follow.hpp:100-105 [not_followed_by] and l.108-113 [followed_by]; the class
    expressions are turned into classes by [build] (ClassModel.v). *)
Definition not_followed_by (f : folding) (E : lenc) (cs : list N) (cc : cexpr) :=
  nf_parse f E cs (build cc).
Definition followed_by (f : folding) (E : lenc) (cs : list N) (cc : cexpr) :=
  not_followed_by f E cs (ENot cc).

(** dsl/follow.hpp:39-46 [lit_insert]: in a literal set, symbol table or operator trie the
    class is attached to the node at which the literal ends (LitModel.v: [l_class]). *)
Definition in_trie (E : lenc) (cs : list N) (value : N) (cc : option cexpr) : literal :=
  Literal cs value
    (match cc with
     | None => None
     | Some e => Some (fun us => match class_try E (build e) us with Some _ => true | None => false end)
     end).
End Fol.
