(** The token rules of the library as the engine of RuleModel.v uses them: all of them in one
    syntax, with the models of LitModel.v, ClassModel.v, TextModel.v, IntModel.v, FolModel.v
    and ByteModel.v as their meaning.
    Source: include/lexy/dsl/token.hpp:25-170 (token_base, _tokk, _toke) and the files below. *)
From Verif Require Import Prelude CodecModel SwarModel LitModel ClassModel TextModel IntModel
  FolModel ByteModel.
From Verif Require RuleModel.
Open Scope N_scope.

(** A token rule.  A reader in front of [rest] is modelled by [rest]; the offsets below count from
    there.  The loops over whole words on buffers are left out as in the models used (C06). *)
Inductive trule :=
| TrLit (f : folding) (cs : list N)                       (* literal.hpp, case_folding.hpp *)
| TrSet (f : folding) (ls : list literal)                 (* literal_set, literal.hpp:516-590 *)
| TrClass (e : cexpr)                                     (* char_class.hpp, ascii.hpp, ... *)
| TrPattern (lead trail : cexpr)                          (* identifier.pattern(), identifier.hpp:33-76 *)
| TrKeyword (lead trail : cexpr) (cs : list N)            (* keyword, identifier.hpp:300-378 *)
| TrUntil (cond : trule)                                  (* until.hpp:73-128 *)
| TrUntilEof (cond : trule)                               (* until.hpp:36-71 *)
| TrAny                                                   (* any.hpp:13-39 *)
| TrDigits (b : base)                                     (* digit.hpp:498-535 *)
| TrDigitsT (b : base)                                    (* digit.hpp:438-496, no_leading_zero *)
| TrDigitsS (b : base) (sep : trule)                      (* digit.hpp:406-436 *)
| TrDigitsST (b : base) (sep : trule)                     (* digit.hpp:353-404 *)
| TrNDigits (n : nat) (b : base)                          (* digit.hpp:599-636 *)
| TrNDigitsS (n : nat) (b : base) (sep : trule)           (* digit.hpp:560-597 *)
| TrFollow (f : folding) (cs : list N) (cc : cexpr)       (* not_followed_by, follow.hpp *)
| TrBytes (n : nat) (p : byte_pred)                       (* byte.hpp:19-65 *)
| TrBits (p : N * N)                                      (* bits.hpp:101-132 *)
| TrTag (tag : nat) (t : trule).                          (* t.error<Tag>, token.hpp:131-161 *)

Section Fold.
Variable fold : N -> N.      (* the Unicode case folding table, see [LitModel] *)

(** any.hpp:22-37: the units before the end of the input. *)
Fixpoint any_run (E : lenc) (rest : list N) : nat :=
  match rest with
  | [] => 0
  | c :: r => if c =? leof E then 0%nat else S (any_run E r)
  end.

Definition of_tres (r : tres) : option (bool * nat) :=
  match r with TOut => None | TNo => Some (false, 0%nat) | TYes n => Some (true, n) end.
Definition of_tok (t : tok) : bool * nat := (t_ok t, t_end t).

(** [try_parse] of the token parser: success and [end]; [None] is out of fuel. *)
Fixpoint tr_try (E : lenc) (t : trule) (rest : list N) {struct t} : option (bool * nat) :=
  match t with
  | TrLit f cs => Some (nf_literal fold f E rest cs 0)
  | TrSet f ls =>
    match set_try fold f E ls rest 0 with
    | NoFuel => None
    | Match (Some _) n => Some (true, n)
    | Match None n => Some (false, n)
    end
  | TrClass e =>
    Some (match class_try E (build e) rest with Some n => (true, n) | None => (false, 0%nat) end)
  | TrPattern lead trail => of_tres (pattern_try E (build lead) (build trail) rest)
  | TrKeyword lead trail cs => Some (keyword_try E (Ident (build lead) (build trail) []) cs rest)
  | TrUntil c =>
    Some (until_try E (fun r => match tr_try E c r with Some (true, n) => Some n | _ => None end) rest)
  | TrUntilEof c =>
    Some (true, until_eof_try E
                  (fun r => match tr_try E c r with Some (true, n) => Some n | _ => None end) rest)
  | TrAny => Some (true, any_run E rest)
  | TrDigits b => Some (of_tok (digits_tok b rest))
  | TrDigitsT b => Some (of_tok (digits_t_tok b rest))
  | TrDigitsS b s =>
    option_map of_tok (digits_s_tok b
      (fun r => match tr_try E s r with Some (true, n) => Some n | _ => None end) rest)
  | TrDigitsST b s =>
    option_map of_tok (digits_st_tok b
      (fun r => match tr_try E s r with Some (true, n) => Some n | _ => None end) rest)
  | TrNDigits n b => Some (of_tok (ndigits_tok n b rest))
  | TrNDigitsS n b s =>
    Some (of_tok (ndigits_s_tok n b
      (fun r => match tr_try E s r with Some (true, n) => Some n | _ => None end) rest))
  | TrFollow f cs cc =>
    let '(ok, st) := nf_try fold f E cs (build cc) rest 0 in Some (ok, nf_end st)
  | TrBytes n p => Some (bytes_try n p rest)
  | TrBits p => Some (bits_try p rest)
  | TrTag _ t => tr_try E t rest
  end.

(** [lexy::try_match_token(t, reader)], lexy/dsl/base.hpp:243-269: a failed match leaves the
    reader where it was. *)
Definition tr_match (E : lenc) (t : trule) (rest : list N) : option nat :=
  match tr_try E t rest with Some (true, n) => Some n | _ => None end.

(** The error tags of token rules, numbered; tags given by the user follow. *)
Definition expected_literal : nat := 0.
Definition expected_literal_set : nat := 1.
Definition expected_keyword : nat := 2.
Definition expected_char_class : nat := 3.
Definition forbidden_leading_zero : nat := 4.
Definition follow_restriction : nat := 5.
Definition user_tag (n : nat) : nat := 6 + n.

(** [end] of the token parser. *)
Definition tr_end (E : lenc) (t : trule) (rest : list N) : nat :=
  match tr_try E t rest with Some (_, n) => n | None => 0%nat end.

(** The error of the no_leading_zero rules: forbidden_leading_zero on the range up to [end]
    (digit.hpp:390-395, 475-480), else expected_char_class at [at_] (396-400, 481-486). *)
Definition zero_error (t : option tok) (at_ : nat) : nat * nat * nat :=
  match t with
  | Some t => if t_zero t then (forbidden_leading_zero, 0, t_end t)%nat
              else (expected_char_class, at_, at_)
  | None => (expected_char_class, at_, at_)
  end.

(** [report_error] after a failed [try_parse]: the tag and the range of the error (a point for
    the errors that only have a position).  The members index, length and name are left out. *)
Fixpoint tr_err (E : lenc) (t : trule) (rest : list N) {struct t} : nat * nat * nat :=
  match t with
  | TrLit _ _ => (expected_literal, 0, 0)%nat                  (* literal.hpp:366-376 *)
  | TrSet _ _ => (expected_literal_set, 0, 0)%nat              (* literal.hpp:556-561 *)
  | TrClass _ => (expected_char_class, 0, 0)%nat               (* char_class.hpp:186-193 *)
  | TrPattern _ _ => (expected_char_class, 0, 0)%nat           (* identifier.hpp:70-74 *)
  | TrKeyword lead trail _ =>                                  (* identifier.hpp:363-376 *)
    (expected_keyword, 0%nat,
     match keyword_error E (Ident (build lead) (build trail) []) rest with
     | Some n => n | None => 0%nat end)
  | TrUntil c =>                                               (* until.hpp:114-128 *)
    let n := tr_end E t rest in
    let '(tag, b, e) := tr_err E c (skipn n rest) in (tag, n + b, n + e)%nat
  | TrUntilEof _ | TrAny => (0, 0, 0)%nat                      (* these always succeed *)
  | TrDigits _ => (expected_char_class, 0, 0)%nat              (* digit.hpp:515-521 *)
  | TrDigitsT b => zero_error (Some (digits_t_tok b rest)) 0   (* digit.hpp:472-487 *)
  | TrDigitsS _ _ =>                                           (* digit.hpp:423-429 *)
    (expected_char_class, tr_end E t rest, tr_end E t rest)
  | TrDigitsST b s =>                                          (* digit.hpp:387-402 *)
    zero_error (digits_st_tok b (tr_match E s) rest) (tr_end E t rest)
  | TrNDigits _ _ | TrNDigitsS _ _ _                           (* digit.hpp:621-627, 589-595 *)
  | TrBytes _ _ | TrBits _ =>                                  (* byte.hpp:57-64, bits.hpp:125-130 *)
    (expected_char_class, tr_end E t rest, tr_end E t rest)
  | TrFollow f cs cc =>                                        (* follow.hpp:82-95 *)
    let '(_, st) := nf_try fold f E cs (build cc) rest 0 in
    if nf_success st then (follow_restriction, nf_end st, nf_end st) else (expected_literal, 0, 0)%nat
  | TrTag tag _ => (user_tag tag, 0%nat, tr_end E t rest)      (* token.hpp:153-159 *)
  end.

(** ** As tokens of the engine *)

(** A position that is kept inside the input.  The record [token] asks for functions that do
    so for every list of numbers; C78 shows that there is nothing to keep. *)
Definition inside (p : nat) (inp : list N) (n : nat) : nat := Nat.min (p + n) (length inp).

Definition engine_try (E : lenc) (t : trule) (inp : list N) (p : nat) : bool * nat :=
  match tr_try E t (skipn p inp) with
  | Some (ok, n) => (ok, inside p inp n)
  | None => (false, p)
  end.
Definition engine_err (E : lenc) (t : trule) (inp : list N) (p : nat) : RuleModel.etag * nat * nat :=
  let '(tag, b, e) := tr_err E t (skipn p inp) in
  (RuleModel.TUser tag, inside p inp (Nat.min b e), inside p inp e).

Lemma engine_try_ok E t inp p : (p <= length inp)%nat ->
  (p <= snd (engine_try E t inp p) <= length inp)%nat.
Proof. intros H. unfold engine_try, inside. destruct (tr_try _ _ _) as [[ok n]|]; cbn [snd]; lia. Qed.
Lemma engine_err_ok E t inp p : (p <= length inp)%nat ->
  let '(_, b, e) := engine_err E t inp p in (p <= b <= e)%nat /\ (e <= length inp)%nat.
Proof.
  intros H. unfold engine_err, inside. destruct (tr_err _ _ _) as [[tag b] e]. lia.
Qed.

(** token.hpp:41-123: a token rule with its kind (token.hpp:121-129 [kind<K>], or the predefined
    one). *)
Definition engine_token (k : RuleModel.tkind) (E : lenc) (t : trule) : RuleModel.token :=
  RuleModel.Token k (engine_try E t) (engine_err E t) (engine_try_ok E t) (engine_err_ok E t).
End Fold.
