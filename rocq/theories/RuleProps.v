(** Properties C30 (positions), C31 (tokens tile the input), C32 (events are nested), C33 (no
    silent failure) and C34 (the actions agree) of whole parses.

    [action inp prods n p] parses the production [p] of the grammar [prods] on the input [inp];
    the theorems range over all of them and over all [n], a bound on the number of parser calls:
    a parse that needs more has no result and the theorems say nothing about it. *)
From Verif Require Import Prelude RuleModel RuleSpec ActionModel RuleMain RuleSample.
From Coq Require Import String List.
Close Scope string_scope.
Close Scope N_scope.

(** ** C30 *)
(** The position reached, and every position in a token, error, grammar, recovery or
    production_finish event lie in the input, and ranges are not reversed. *)
Theorem C30_positions_in_input : forall inp prods n p o s m,
  action inp prods n p = Res o s m ->
  pos s <= length inp /\
  (forall k b e, In (EToken k b e) (trace s) -> b <= e /\ e <= length inp) /\
  (forall t b e, In (EError t b e) (trace s) -> b <= e /\ e <= length inp) /\
  (forall q, In (EGStart q) (trace s) \/ In (EGFinish q) (trace s) \/ In (EGCancel q) (trace s) \/
             In (ERStart q) (trace s) \/ In (ERFinish q) (trace s) \/ In (ERCancel q) (trace s) ->
             q <= length inp) /\
  (forall r q, In (EPFinish r q) (trace s) -> q <= length inp).
Proof.
  intros inp prods n p o s m H. destruct (action_events _ _ _ _ _ _ _ H) as (_ & _ & Hi & Hp).
  rewrite Forall_forall in Hi.
  assert (Hi' : forall e, In e (trace s) -> ev_in (length inp) e).
  { intros e He. apply Hi. now apply -> in_rev. }
  repeat split; try (apply Hi' in H0; apply H0); auto.
  - intros q Hq. repeat (destruct Hq as [Hq|Hq]); apply Hi' in Hq; exact Hq.
  - intros r q Hq. now apply Hi' in Hq.
Qed.
Print Assumptions C30_positions_in_input.

(** Along the consumed tokens positions never decrease: a token never ends after a later one
    begins. *)
Theorem C30_monotone : forall inp prods n p o s m ts1 b e ts2 b' e' ts3,
  action inp prods n p = Res o s m ->
  tokens (rev (trace s)) = ts1 ++ (b, e) :: ts2 ++ (b', e') :: ts3 ->
  b <= e /\ e <= b' /\ b' <= e' /\ e' <= pos s.
Proof.
  intros inp prods n p o s m ts1 b e ts2 b' e' ts3 H Ht.
  destruct (action_events _ _ _ _ _ _ _ H) as (Hti & _).
  apply tile_contig in Hti. rewrite Ht in Hti.
  apply contiguous_app in Hti. destruct Hti as (q1 & _ & Hti).
  inversion Hti as [|? ? ? ? Hbe Hti2]; subst.
  apply contiguous_app in Hti2. destruct Hti2 as (q2 & Hti2 & Hti3).
  inversion Hti3 as [|? ? ? ? Hbe' Hti4]; subst.
  apply contiguous_le in Hti2. apply contiguous_le in Hti4. lia.
Qed.
Print Assumptions C30_monotone.

Example C30_example : exists s, action (str "1, (2),(x), ((3))") values 100 0 = Res (OTrue [VSink
    [[VProd 1 [VLex 0 1]]; [VProd 1 [VProd 1 [VLex 4 5]]]; [VProd 1 []]; [VProd 1 [VProd 1 [VProd 1 [VLex 14 15]]]]]]) s 0 /\
  pos s = 17 /\ length (tokens (rev (trace s))) = 31.
Proof. eexists. vm_compute. repeat split. Qed.

(** ** C31 *)
(** Token events are contiguous from the start of the input to the position reached, also after
    recovery and on failure, and together they spell exactly the consumed input. *)
Theorem C31_tokens_tile : forall inp prods n p o s m,
  action inp prods n p = Res o s m ->
  contiguous 0 (tokens (rev (trace s))) (pos s) /\
  concat (map (fun t => slice inp (fst t) (snd t)) (tokens (rev (trace s)))) = firstn (pos s) inp.
Proof.
  intros inp prods n p o s m H. destruct (action_events _ _ _ _ _ _ _ H) as (Ht & _ & _ & Hp).
  split; [now apply tile_contig|]. rewrite (tile_spell inp prods _ _ _ Ht Hp). unfold slice.
  now rewrite Nat.sub_0_r.
Qed.
Print Assumptions C31_tokens_tile.

(** With a broken value inside parentheses: recovery consumed "x" as an error token. *)
Example C31_example : exists s, action (str "(x)") values 100 0 = Res (OTrue [VSink [[VProd 1 []]]]) s 0 /\
  In (ERFinish 2) (trace s) /\ In (EToken KError 1 2) (trace s) /\
  tokens (rev (trace s)) = [(0, 0); (0, 1); (1, 1); (1, 2); (2, 3); (3, 3); (3, 3)].
Proof. eexists. vm_compute. repeat split; auto 20. Qed.

(** ** C32 *)
(** Starts and ends of grammars, productions and recoveries are properly nested, each start has
    exactly one end, on success and on failure; the outermost ones are those of the parsed
    production, and they say whether the parse succeeded. *)
Theorem C32_nested : forall inp prods n p o s m,
  action inp prods n p = Res o s m ->
  balanced (rev (trace s)) /\
  exists es, rev (trace s) =
    [EGStart 0; EPStart p 0] ++ es ++
    (match o with OFalse => [EPCancel p (pos s); EGCancel (pos s)]
                | _ => [EPFinish p (pos s); EGFinish (pos s)] end).
Proof.
  intros inp prods n p o s m H. split; [apply (action_events _ _ _ _ _ _ _ H)|].
  exact (action_frame _ _ _ _ _ _ _ H).
Qed.
Print Assumptions C32_nested.

Example C32_example : exists s1 s2,
  action (str "(x)") values 100 0 = Res (OTrue [VSink [[VProd 1 []]]]) s1 0 /\
  action (str "(") values 100 0 = Res OFalse s2 0 /\
  In (EPCancel 1 1) (trace s1) /\ In (ERStart 1) (trace s1) /\ In (ERCancel 1) (trace s2) /\
  length (trace s1) = 18 /\ length (trace s2) = 15.
Proof. do 2 eexists. vm_compute. repeat split; auto 20. Qed.

(** ** C33 *)
(** C33 as stated fails for a rule that documents it: find outside of try_ fails without an
    error. *)
Theorem C33_refuted : exists inp prods n p s,
  action inp prods n p = Res OFalse s 0 /\ has_error (rev (trace s)) = false.
Proof. exists (str "ab"), only_find, 10, 0. eexists. vm_compute. split; reflexivity. Qed.
Print Assumptions C33_refuted.

(** It holds for every grammar that uses find and recover only for the recovery of try_ (and for
    all built-in recovery: lists with terminator, brackets, peek_not, ...). *)
Theorem C33_partial : forall inp prods n p s m, guarded prods ->
  action inp prods n p = Res OFalse s m -> exists t b e, In (EError t b e) (trace s).
Proof.
  intros inp prods n p s m Hg H. apply action_failure in H; auto.
  unfold has_error in H. apply existsb_exists in H. destruct H as (e & He & Hr).
  apply in_rev in He. destruct e; try discriminate. eauto.
Qed.
Print Assumptions C33_partial.

Example C33_example : guarded values /\ exists s,
  action (str "1, (2") values 100 0 = Res OFalse s 0 /\ In (EError (TUser 0) 5 5) (trace s).
Proof.
  split; [intros [|p]; vm_compute; split; [reflexivity|now intros w [= <-]|reflexivity|discriminate]|].
  eexists. vm_compute. split; [reflexivity|]. cbn. auto 20.
Qed.

(** ** C34 *)
(** match is true exactly if validate reports no error, parse has a value exactly if validate is
    not a fatal error, and parse_as_tree, where it is usable, has the status of validate.  All of
    them report the same errors in the same order. *)
Theorem C34_partial : forall inp prods transparent n p, guarded prods ->
  (forall b st errs, do_match inp prods n p = Some b -> do_validate inp prods transparent n p = Some (st, errs) ->
     (b = true <-> errs = []) /\ (b = true <-> st = Success)) /\
  (forall st errs st' errs' v, do_validate inp prods transparent n p = Some (st, errs) ->
     do_parse inp prods transparent n p = Some (st', errs', v) ->
     st' = st /\ errs' = errs /\ (v <> None <-> st <> Fatal)) /\
  (forall st errs st' errs', do_validate inp prods transparent n p = Some (st, errs) ->
     do_tree inp prods transparent n p = Some (Some (st', errs')) -> st' = st /\ errs' = errs).
Proof. exact actions_agree. Qed.
Print Assumptions C34_partial.

(** The number of errors validate reports is the number of error events, in their order. *)
Theorem C34_errors : forall inp prods transparent n p o s m,
  action inp prods n p = Res o s m ->
  exists st errs, do_validate inp prods transparent n p = Some (st, errs) /\
    map (fun r => (r_tag r, r_from r, r_to r)) errs = errors (rev (trace s)).
Proof. exact validate_errors. Qed.
Print Assumptions C34_errors.

(** As stated C34 fails with a rule that fails silently: validate and parse succeed, parse without
    a value, while match is false. *)
Theorem C34_silent_refuted : exists inp prods transparent n p,
  do_match inp prods n p = Some false /\
  do_validate inp prods transparent n p = Some (Success, []) /\
  do_parse inp prods transparent n p = Some (Success, [], None).
Proof. exists (str "ab"), only_find, (fun _ => false), 10, 0. vm_compute. repeat split. Qed.
Print Assumptions C34_silent_refuted.

(** And parse_as_tree violates its own precondition as soon as the grammar uses a subgrammar. *)
Theorem C34_subgrammar_refuted : exists inp prods transparent n p,
  do_validate inp prods transparent n p = Some (Success, []) /\
  do_tree inp prods transparent n p = Some None.
Proof. exists (str "[1]"), outer, (fun _ => false), 20, 0. vm_compute. repeat split. Qed.
Print Assumptions C34_subgrammar_refuted.

Example C34_example : 
  do_match (str "(x),1,") values 100 0 = Some false /\
  do_validate (str "(x),1,") values (fun q => q =? 1) 100 0 =
    Some (Recovered, [Report 0 1 TExhausted 1 1; Report 0 0 TTrailing 5 6]) /\
  do_parse (str "(x),1,") values (fun q => q =? 1) 100 0 =
    Some (Recovered, [Report 0 1 TExhausted 1 1; Report 0 0 TTrailing 5 6],
          Some [VSink [[VProd 1 []]; [VProd 1 [VLex 4 5]]]]) /\
  do_tree (str "(x),1,") values (fun q => q =? 1) 100 0 =
    Some (Some (Recovered, [Report 0 1 TExhausted 1 1; Report 0 0 TTrailing 5 6])).
Proof. vm_compute. repeat split. Qed.
