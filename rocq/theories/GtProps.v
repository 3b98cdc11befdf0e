(** Property C78: every token rule ends, stays inside the input and reports its errors there,
    for every input (ill-formed text too); the ones that are made of characters consume something.
    So they are tokens of the rule engine, whose theorems (C30-C44) hold for
    grammars made of them.

    [tr_try fold E t rest] runs the token rule [t] in front of the units [rest]: [Some (ok, n)] is
    a success or failure with [n] units consumed, [None] would be an endless loop.  [tr_err] is
    the tag and range of the error; [fold] is the Unicode case folding table. *)
From Verif Require Import Prelude CodecModel SwarModel LitModel LitSpec ClassModel TextModel
  IntModel FolModel ByteModel GtModel GtSpec GtProofs.
From Verif Require RuleModel RuleSample.
From Coq Require Import String List.
Close Scope string_scope.
Open Scope N_scope.

Theorem C78_inside : forall fold E t rest, tr_ok E t ->
  exists ok n, tr_try fold E t rest = Some (ok, n) /\ (n <= length rest)%nat.
Proof. intros fold E t rest H. exact (inside_all fold E t H rest). Qed.
Print Assumptions C78_inside.

(** The error of a failed match. *)
Theorem C78_error_inside : forall fold E t rest tag b e, tr_ok E t ->
  tr_err fold E t rest = (tag, b, e) -> (b <= e <= length rest)%nat.
Proof.
  intros fold E t rest tag b e H Ht. pose proof (error_inside fold E t H rest) as Hi. rewrite Ht in Hi. exact Hi.
Qed.
Print Assumptions C78_error_inside.

(** When [until] fails it stands at the end of the input and the condition does not match there:
    neither of the assertions of its error report fails, and the error is the condition's. *)
Theorem C78_until_error : forall fold E c rest n, tr_ok E c ->
  tr_try fold E (TrUntil c) rest = Some (false, n) ->
  lpeek E (skipn n rest) = leof E /\
  (exists m, tr_try fold E c (skipn n rest) = Some (false, m)) /\
  (exists tag b e, tr_err fold E c (skipn n rest) = (tag, b, e) /\
     tr_err fold E (TrUntil c) rest = (tag, n + b, n + e)%nat).
Proof. exact until_report. Qed.
Print Assumptions C78_until_error.

(** Tokens that consume something, so that loops over them end. *)
Theorem C78_consumes : forall fold E t rest n, tr_ok E t -> eats t ->
  tr_try fold E t rest = Some (true, n) -> (1 <= n <= length rest)%nat.
Proof.
  intros fold E t rest n Ho He H. split; [exact (eats_all fold E t Ho He rest n H)|].
  destruct (inside_all fold E t Ho rest) as (ok & m & Hm & Hl). congruence.
Qed.
Print Assumptions C78_consumes.

(** The engine runs the token rule at every position of every input, unchanged. *)
Theorem C78_engine : forall fold k E t inp p, tr_ok E t -> (p <= length inp)%nat ->
  (exists ok n, tr_try fold E t (skipn p inp) = Some (ok, n) /\
     RuleModel.tk_try (engine_token fold k E t) inp p = (ok, p + n)%nat) /\
  (exists tag b e, tr_err fold E t (skipn p inp) = (tag, b, e) /\
     RuleModel.tk_err (engine_token fold k E t) inp p = (RuleModel.TUser tag, p + b, p + e)%nat).
Proof.
  intros fold k E t inp p Ho Hp. split; [now apply engine_exact|now apply engine_error].
Qed.
Print Assumptions C78_engine.

(** What [tr_ok] excludes: the literal "\xFF" in ASCII or UTF-8 compiles, the type of its character is
    that of the encoding.  Its unit is also what the reader delivers at the end of the input, where
    the literal matches and moves the reader past it. *)
Theorem C78_ff_refuted : forall E, E = Enc Ascii \/ E = Enc Utf8 ->
  forall fold, tr_try fold E (TrLit NoFold [0xFF]) [] = Some (true, 1%nat).
Proof. intros E [->| ->] fold; reflexivity. Qed.
Print Assumptions C78_ff_refuted.

(** ** A grammar with the token rules of the library *)
Notation str := RuleSample.str.
Definition no_fold (c : N) : N := c.
Definition number : trule := TrTag 3 (TrDigitsST Decimal (TrLit NoFold (str "'"))).
Definition null : trule := TrKeyword (named Calpha) (named Cword) (str "null").
Definition the_token (t : trule) : RuleModel.rule :=
  RuleModel.RTok (engine_token no_fold (RuleModel.KUser 0) (Enc Utf8) t).
(** Numbers and nulls separated by commas, with whitespace and comments up to a line end. *)
Definition a_list (p : nat) : RuleModel.production :=
  match p with
  | 0%nat => RuleModel.Production
      (RuleModel.RSeq [RuleModel.RLst (RuleModel.RProd 1) (Some (the_token (TrLit NoFold (str ",")), RuleModel.STrail));
                       RuleModel.REof])
      false
      (Some (RuleModel.RChc [the_token (TrClass (named Cspace));
              RuleModel.RBr (the_token (TrLit NoFold (str "#"))) [the_token (TrUntilEof (TrSet NoFold newline_set))]]))
      false 10
  | _ => RuleModel.Production
      (RuleModel.RChc [RuleModel.RCap (the_token number); RuleModel.RCap (the_token null)]) false None true 10
  end.
Example C78_tokens : Forall (tr_ok (Enc Utf8))
    [number; null; TrLit NoFold (str ","); TrClass (named Cspace); TrUntilEof (TrSet NoFold newline_set)] /\
  Forall eats [number; null; TrLit NoFold (str ","); TrClass (named Cspace)].
Proof.
  assert (H : forall cs, forallb (fun c => negb (c =? 0xFF)) cs = true -> no_eof (Enc Utf8) cs).
  { intros cs Hf Hin. rewrite forallb_forall in Hf. apply Hf in Hin. discriminate. }
  split.
  - repeat constructor; try (apply H; reflexivity); try discriminate.
    intros l [<-|[<-|[]]]; apply H; reflexivity.
  - repeat constructor; discriminate.
Qed.
Example C78_example :
  exists s, RuleModel.action (str "1'000, # x
 null,7,") a_list 100 0 = RuleModel.Res (RuleModel.OTrue [RuleModel.VSink
      [[RuleModel.VProd 1 [RuleModel.VLex 0 5]]; [RuleModel.VProd 1 [RuleModel.VLex 12 16]];
       [RuleModel.VProd 1 [RuleModel.VLex 17 18]]]]) s 0.
Proof. eexists. vm_compute. reflexivity. Qed.
(** A leading zero: the error given to [error<Tag>], over the zero. *)
Example C78_example_error : tr_try no_fold (Enc Utf8) number (str "01") = Some (false, 1%nat) /\
  tr_err no_fold (Enc Utf8) number (str "01") = (user_tag 3, 0, 1)%nat.
Proof. split; reflexivity. Qed.
(** [until(newline)] at the end of an ill-formed text. *)
Example C78_example_until :
  tr_try no_fold (Enc Utf8) (TrUntil (TrSet NoFold newline_set)) [0x61; 0xC3; 0x28] = Some (false, 3%nat) /\
  tr_err no_fold (Enc Utf8) (TrUntil (TrSet NoFold newline_set)) [0x61; 0xC3; 0x28] = (expected_literal_set, 3, 3)%nat.
Proof. split; reflexivity. Qed.
