(** Properties C35-C44 and C65 of single rules, for every input, grammar, rule, parser state.

    Vocabulary (RuleSem.v), all free of fuel:
    - [Runs inp prods c r s o s']: parsing the rule [r] in state [s] has the outcome [o] ([OTrue vs]:
      success with the values [vs]; [OFalse]: failure) and ends in state [s'];
    - [Tries r s ok b]: the condition of the branch rule [r] does ([ok]) or does not match;
    - [Declines r s es]: it does not match, and the branch is dropped leaving the events [es];
    - [Takes c r s o s']: it matches, and then [r] is parsed;
    - [Matches r p ok e]: the token rule (or the rule inside token(), peek()) [r] does ([ok]) or does
      not match at position [p]; it ends at [e]. *)
From Verif Require Import Prelude RuleModel RuleSpec ActionModel RuleDen RuleGood RuleMono RuleSem RuleLaws RuleLists RuleSeq RuleInv RuleChain RuleCtl
  RuleFacts RuleNoWs RuleSample.
From Coq Require Import String List Permutation.
Close Scope string_scope.
Close Scope N_scope.

(** The states and contexts of the examples. *)
Definition start (p : nat) : st := St p 0 true [] [].
Definition nospace : cx := Cx None 3.
Definition space : cx := Cx (Some (lit " ")) 3.

Ltac runs := eapply (parse_Runs _ _ 60); vm_compute; reflexivity.
Ltac declines := eexists; split; [apply (try_Tries _ _ 60)|apply (cancel_Cancels _ _ 60)]; vm_compute; reflexivity.
Ltac takes := eexists; split; [apply (try_Tries _ _ 60)|apply (finish_Finishes _ _ 60 _ _ _ _ _ _ 0)]; vm_compute; reflexivity.
Ltac matches := apply (tmatch_Matches _ _ 60); vm_compute; reflexivity.

(** ** C35: a branch that is not taken leaves no trace *)
(** The only events are 'backtracked' and productions that are started and cancelled; a choice
    does the same with and without the branch, from the same state (position, variables, depth,
    flag), apart from those events. *)
Theorem C35_choice : forall inp prods c b rs s es o, Declines inp prods b s es ->
  debug es /\
  (forall s1, Runs inp prods c (RChc (b :: rs)) s o s1 ->
     exists s2, s1 = addt (rev es ++ trace s) s2 /\ Runs inp prods c (RChc rs) s o (addt (trace s) s2)) /\
  (forall s1, Runs inp prods c (RChc rs) s o s1 ->
     exists s2, s1 = addt (trace s) s2 /\ Runs inp prods c (RChc (b :: rs)) s o (addt (rev es ++ trace s) s2)).
Proof.
  intros inp prods c b rs s es o H. split; [eapply Declines_debug; eauto|]. now apply choice_untaken.
Qed.
Print Assumptions C35_choice.

(** The rules where the branch is optional go on in place. *)
Theorem C35_optional : forall inp prods c b s es, Declines inp prods b s es ->
  debug es /\
  Runs inp prods c (RIf b) s (OTrue []) (emits es s) /\
  Runs inp prods c (ROpt b) s (OTrue [VNull]) (emits es s) /\
  Runs inp prods c (RWhile b) s (OTrue []) (emits es s) /\
  (forall item k v s0, Runs inp prods c item s0 (OTrue v) s ->
     Runs inp prods c (RLst item (Some (b, k))) s0 (OTrue [VSink (one v)]) (emits es s)).
Proof.
  intros inp prods c b s es H. split; [eapply Declines_debug; eauto|].
  split; [now apply if_declines|]. split; [now apply opt_declines|]. split; [now apply while_declines|].
  intros item k v s0 Hi. apply list_runs. exists v, s, []. rewrite app_nil_r. repeat split; auto. now constructor.
Qed.
Print Assumptions C35_optional.

(** An alternative that looks three units ahead is dropped: only the look is on record. *)
Definition look_abc : rule := RBr (RPeek (lit "abc") TPeek) [lit "abc"].
Example C35_example : Declines (str "abx") (fun _ => plain RElse) look_abc (start 0) [EBack 0 2] /\
  Runs (str "abx") (fun _ => plain RElse) nospace (RChc [look_abc; lit "a"]) (start 0) (OTrue [])
    (St 1 0 true [] [EToken (KUser 0) 0 1; EBack 0 2]).
Proof. split; [declines|runs]. Qed.

(** ** C36: ordered choice *)
(** A choice parses the first alternative whose condition matches - whatever comes of it: the
    outcome [o] is that alternative's -, and otherwise reports exhausted_choice, once, at the
    position where it began. *)
Theorem C36_first_match : forall inp prods c rs s o s',
  Runs inp prods c (RChc rs) s o s' <->
  (exists pre r post es b, rs = pre ++ r :: post /\ Skips inp prods pre s es /\ Tries inp prods r s true b /\
     Finishes inp prods c r b (emits es s) o s') \/
  (existsb unconditional rs = false /\ o = OFalse /\ exists es, Skips inp prods rs s es /\
     s' = emit (EError TExhausted (pos s) (pos s)) (emits es s)).
Proof. exact choice_runs. Qed.
Print Assumptions C36_first_match.

(** [Skips] means that none of the alternatives matches. *)
Theorem C36_skips : forall inp prods rs s es, Skips inp prods rs s es ->
  debug es /\ forall r, In r rs -> exists b, Tries inp prods r s false b.
Proof.
  intros inp prods rs s es H. split; [eapply Skips_debug; eauto|].
  intros r Hr. induction H as [s|r0 rs s es es' (b & H1 & _) H2 IH]; [destruct Hr|].
  destruct Hr as [<-|Hr]; eauto.
Qed.
Print Assumptions C36_skips.

(** As a branch (in another choice, if_, ...), a choice matches iff one of its alternatives does,
    and then does the same as on its own. *)
Theorem C36_as_branch : forall inp prods c rs s,
  (forall ok b, Tries inp prods (RChc rs) s ok b ->
     (ok = true <-> exists r b, In r rs /\ Tries inp prods r s true b)) /\
  (forall o s', Takes inp prods c (RChc rs) s o s' -> Runs inp prods c (RChc rs) s o s').
Proof. intros inp prods c rs s. split; [apply choice_tries|apply choice_takes]. Qed.
Print Assumptions C36_as_branch.

(** The first alternative "a" >> "b" matches by its condition and fails; "ac" is not tried.
    With an input where no condition matches, the choice is exhausted. *)
Example C36_example :
  Runs (str "ac") (fun _ => plain RElse) nospace (RChc [RBr (lit "a") [lit "b"]; lit "ac"]) (start 0) OFalse
    (St 1 0 true [] [EError (TUser 0) 1 1; EToken KError 1 1; EToken (KUser 0) 0 1]) /\
  Runs (str "zc") (fun _ => plain RElse) nospace (RChc [RBr (lit "a") [lit "b"]; lit "ac"]) (start 0) OFalse
    (St 0 0 true [] [EError TExhausted 0 0]).
Proof. split; runs. Qed.

(** ** C37: lookahead *)
Theorem C37_peek : forall inp prods c r t s,
  (forall o s', Runs inp prods c (RPeek r t) s o s' <->
     exists ok e, Matches inp prods r (pos s) ok e /\ o = OTrue [] /\
       s' = emit (EBack (pos s) e) (if ok then s else emit (EError t (pos s) e) s)) /\
  (forall ok b, Tries inp prods (RPeek r t) s ok b <-> exists e, Matches inp prods r (pos s) ok e /\ b = BRange (pos s) e) /\
  (forall o s', Takes inp prods c (RPeek r t) s o s' -> o = OTrue [] /\ exists b e, s' = emit (EBack b e) s).
Proof.
  intros inp prods c r t s. split; [intros; apply peek_runs|]. split; [apply peek_tries|].
  intros o s'. now apply peek_takes.
Qed.
Print Assumptions C37_peek.

(** peek_not succeeds silently if the rule does not match; when it does match, that is reported
    and, to recover, the matched text is consumed as an error token. *)
Theorem C37_peek_not : forall inp prods c r t s,
  (forall o s', Runs inp prods c (RPeekN r t) s o s' <->
     exists ok e, Matches inp prods r (pos s) ok e /\ o = OTrue [] /\
       s' = if ok
            then setpos e (emits [EError t (pos s) e; ERStart (pos s); EToken KError (pos s) e; ERFinish e] s)
            else emit (EBack (pos s) e) s) /\
  (forall ok b, Tries inp prods (RPeekN r t) s ok b <->
     exists e, Matches inp prods r (pos s) (negb ok) e /\ b = BRange (pos s) e) /\
  (forall o s', Takes inp prods c (RPeekN r t) s o s' -> o = OTrue [] /\ exists b e, s' = emit (EBack b e) s).
Proof.
  intros inp prods c r t s. split; [intros; apply peek_not_runs|]. split; [apply peek_not_tries|].
  intros o s'. now apply peek_takes.
Qed.
Print Assumptions C37_peek_not.

(** lookahead(needle, end): succeeds iff scanning forward meets the needle before the end token
    and the end of the input; [first_at f p q found]: [q] is the first position from [p] where
    either matches, and [found] says that it is the needle. *)
Theorem C37_lookahead : forall inp prods c f t s, pos s <= length inp ->
  (forall o s', Runs inp prods c (RLook f t) s o s' ->
     exists q found e, first_at inp f (pos s) q found /\ o = OTrue [] /\
       s' = emit (EBack (pos s) e) (if found then s else emit (EError t (pos s) e) s)) /\
  (forall ok b, Tries inp prods (RLook f t) s ok b -> exists q, first_at inp f (pos s) q ok) /\
  (forall o s', Takes inp prods c (RLook f t) s o s' -> o = OTrue [] /\ exists b e, s' = emit (EBack b e) s).
Proof.
  intros inp prods c f t s Hp. split; [intros o s'; now apply lookahead_runs|].
  split; [intros ok b; now apply lookahead_tries|]. intros o s'. now apply peek_takes.
Qed.
Print Assumptions C37_lookahead.

(** "123;": there is a semicolon ahead (but none before a "2"), the next token is not a letter a,
    and the reader has not moved. *)
Example C37_example :
  Runs (str "123;") (fun _ => plain RElse) nospace (RLook (lit_finder (str ";") []) TLook) (start 0) (OTrue [])
    (St 0 0 true [] [EBack 0 4]) /\
  Runs (str "123;") (fun _ => plain RElse) nospace (RLook (lit_finder (str ";") (str "2")) TLook) (start 0) (OTrue [])
    (St 0 0 true [] [EBack 0 2; EError TLook 0 2]) /\
  Runs (str "123;") (fun _ => plain RElse) nospace (RPeekN (lit "a") TUnexpected) (start 0) (OTrue [])
    (St 0 0 true [] [EBack 0 0]).
Proof. repeat split; runs. Qed.

(** ** C38: lists *)
(** list(item, sep) succeeds exactly on: an item, then as often as the separator matches
    separator and item (a trailing separator is reported unless allowed, and the list ends after
    it); the sink gets the values of every item and separator, once and in order.  See
    [RuleLists.More]. *)
Theorem C38_list : forall inp prods c item sep s vs s',
  Runs inp prods c (RLst item sep) s (OTrue vs) s' <->
  exists v s1 l, Runs inp prods c item s (OTrue v) s1 /\ More inp prods c item sep s1 l s' /\
    vs = [VSink (one v ++ l)].
Proof. exact list_runs. Qed.
Print Assumptions C38_list.

Theorem C38_list_fails : forall inp prods c item sep s s',
  Runs inp prods c (RLst item sep) s OFalse s' <->
  Runs inp prods c item s OFalse s' \/
  exists v s1, Runs inp prods c item s (OTrue v) s1 /\ MoreFails inp prods c item sep s1 s'.
Proof. exact list_fails. Qed.
Print Assumptions C38_list_fails.

(** A list with a terminator: items and separators up to the terminator are accepted; *)
Theorem C38_terminated : forall inp prods c term item sep lim s v s1 l s2 o s', pos s <= length inp ->
  Runs inp prods c item s (OTrue v) s1 -> TMore inp prods c term item sep s1 l s2 ->
  Takes inp prods c term s2 o s' ->
  Runs inp prods c (RLstT term item sep lim) s (after [VSink (one v ++ l)] o) s'.
Proof. exact tlist_runs. Qed.
Print Assumptions C38_terminated.

(** and nothing else is accepted without an error event. *)
Theorem C38_terminated_only : forall inp prods c term item sep lim s o s', guarded prods ->
  weak (RLstT term item sep lim) = false -> weakc c = false -> pos s <= length inp ->
  Runs inp prods c (RLstT term item sep lim) s o s' -> quiet s s' ->
  exists v s1 l s2 o', Runs inp prods c item s (OTrue v) s1 /\ TMore inp prods c term item sep s1 l s2 /\
    Takes inp prods c term s2 o' s' /\ o = after [VSink (one v ++ l)] o'.
Proof. exact tlist_clean. Qed.
Print Assumptions C38_terminated_only.

(** After a broken item or a missing separator the list skips to the next separator or the
    terminator and goes on there; the items parsed before and after are all in the sink.
    See [RuleLists.TRec]. *)
Theorem C38_recovers : forall inp prods c term item sr k lim s v s1 l s2 o s', pos s <= length inp ->
  (Runs inp prods c item s (OTrue v) s1 /\ TRec inp prods c term item sr k lim PItem s1 l s2) \/
  (v = [] /\ Runs inp prods c item s OFalse s1 /\ TRec inp prods c term item sr k lim PBad s1 l s2) ->
  Takes inp prods c term s2 o s' ->
  Runs inp prods c (RLstT term item (Some (sr, k)) lim) s (after [VSink (one v ++ l)] o) s'.
Proof. exact tlist_recovers. Qed.
Print Assumptions C38_recovers.

(** A separator where an item should be.  Without a terminator, and with an item that is a branch, the first separator
    is a trailing one: it is reported (unless allowed) and the list ends behind it; *)
Theorem C38_duplicated : forall inp prods c item sr k s v s1 w s2 es, is_branch prods item = true ->
  Runs inp prods c item s (OTrue v) s1 -> Takes inp prods c sr s1 (OTrue w) s2 -> Declines inp prods item s2 es ->
  Runs inp prods c (RLst item (Some (sr, k))) s (OTrue [VSink (one v ++ one w)])
    (match k with SErr t => emit (EError t (pos s1) (pos s2)) (emits es s2) | _ => emits es s2 end).
Proof.
  intros inp prods c item sr k s v s1 w s2 es Hb H1 H2 H3. apply list_runs. exists v, s1, (one w).
  split; [exact H1|]. split; [|reflexivity].
  pose proof (more_sep_trailing inp prods c item sr k s1 w s2 es H2 (conj Hb H3)) as H. destruct k; exact H.
Qed.
Print Assumptions C38_duplicated.

(** with an item that is not a branch its error is raised, and the list fails; *)
Theorem C38_duplicated_plain : forall inp prods c item sr k s v s1 w s2 s3, is_branch prods item = false ->
  Runs inp prods c item s (OTrue v) s1 -> Takes inp prods c sr s1 (OTrue w) s2 -> Runs inp prods c item s2 OFalse s3 ->
  Runs inp prods c (RLst item (Some (sr, k))) s OFalse s3.
Proof.
  intros inp prods c item sr k s v s1 w s2 s3 Hb H1 H2 H3. apply list_fails. right. exists v, s1.
  split; [exact H1|]. eapply mf_sep_item; [exact H2|]. unfold Item. rewrite Hb. exact H3.
Qed.
Print Assumptions C38_duplicated_plain.

(** in a list with a terminator the error of the item is raised and the list goes on after the second separator. *)
Theorem C38_duplicated_terminated : forall inp prods c term item sr k lim s v s1 es w s2 b s3 b2 w2 s4 l s5 o s',
  pos s <= length inp ->
  Runs inp prods c item s (OTrue v) s1 -> Declines inp prods term s1 es ->
  Runs inp prods c sr (emits es s1) (OTrue w) s2 -> Tries inp prods term s2 false b ->
  Runs inp prods c item s2 OFalse s3 ->
  Tries inp prods sr (emit (ERStart (pos s3)) s3) true b2 ->
  Finishes inp prods c sr b2
    (emits [ERStart (pos s3); EToken KError (pos s3) (pos s3); ERFinish (pos s3)] s3) (OTrue w2) s4 ->
  TRec inp prods c term item sr k lim (PSep (pos s3)) s4 l s5 -> Takes inp prods c term s5 o s' ->
  Runs inp prods c (RLstT term item (Some (sr, k)) lim) s
    (after [VSink (one v ++ one w ++ one w2 ++ l)] o) s'.
Proof.
  intros inp prods c term item sr k lim s v s1 es w s2 b s3 b2 w2 s4 l s5 o s' Hp H1 H2 H3 H4 H5 H6 H7 H8 H9.
  eapply tlist_recovers; [exact Hp| |exact H9]. left. split; [exact H1|].
  eapply tr_sep; [exact H2|exact H3|]. eapply tr_bad_item; [exact H4|exact H5|].
  eapply tr_resume; [apply scan_here|exact H6|exact H7|exact H8].
Qed.
Print Assumptions C38_duplicated_terminated.

(** A list with a terminator ends at the terminator, whatever was broken before it: the result is that of
    the terminator.  Otherwise it gave up, in a recovery that reached the limit or the end of the input; nothing else makes it
    fail. *)
Theorem C38_ends : forall inp prods c term item sep lim s o s', pos s <= length inp ->
  Runs inp prods c (RLstT term item sep lim) s o s' ->
  (exists v s2 o', Takes inp prods c term s2 o' s' /\ o = after v o') \/
  (o = OFalse /\ exists b s2, s' = emit (ERCancel (pos s2)) (emit (EToken KError b (pos s2)) s2) /\
     (fst (tk_try lim inp (pos s2)) = true \/ length inp <= pos s2)).
Proof. exact tlist_ends. Qed.
Print Assumptions C38_ends.

Definition comma : option (rule * sepk) := Some (lit ",", SErr TTrailing).
Definition never : token := class_tok (KUser 9) (TUser 9) (fun _ => false).
Definition digits_list : rule := RLstT (lit ")") (RCap digit) comma never.

(** "1,2" ends before the x; "1,,2": without terminator a second comma ends the list with an error;
    in the list with terminator the broken item is skipped and 2 still arrives. *)
Example C38_example :
  Runs (str "1,2x") (fun _ => plain RElse) nospace (RLst (RCap digit) comma) (start 0)
    (OTrue [VSink [[VLex 0 1]; [VLex 2 3]]])
    (St 3 0 true [] [EToken (KUser 1) 2 3; EToken (KUser 0) 1 2; EToken (KUser 1) 0 1]) /\
  Runs (str "1,x") (fun _ => plain RElse) nospace (RLst (RCap digit) comma) (start 0)
    (OTrue [VSink [[VLex 0 1]]])
    (St 2 0 true [] [EError TTrailing 1 2; EToken (KUser 0) 1 2; EToken (KUser 1) 0 1]) /\
  (exists s, Runs (str "1,x?,2)") (fun _ => plain RElse) nospace digits_list (start 0)
      (OTrue [VSink [[VLex 0 1]; [VLex 5 6]]]) s /\ pos s = 7 /\ errors (rev (trace s)) = [(TUser 1, 2, 2)]) /\
  (exists s, Runs (str "1,2)") (fun _ => plain RElse) nospace digits_list (start 0)
      (OTrue [VSink [[VLex 0 1]; [VLex 2 3]]]) s /\ pos s = 4 /\ quiet (start 0) s).
Proof.
  split; [runs|]. split; [runs|].
  split; eexists; (split; [runs|]); (split; [reflexivity|]); try reflexivity; try (vm_compute; auto; fail).
  eexists (rev [_; _; _; _]). split; reflexivity.
Qed.

(** "1,,2": the list ends behind the first comma; with a terminator both digits arrive; a sequence is not
    a branch, so the list fails. *)
Example C38_duplicated_example :
  Runs (str "1,,2") (fun _ => plain RElse) nospace (RLst (RCap digit) comma) (start 0)
    (OTrue [VSink [[VLex 0 1]]])
    (St 2 0 true [] [EError TTrailing 1 2; EToken (KUser 0) 1 2; EToken (KUser 1) 0 1]) /\
  (exists s, Runs (str "1,,2)") (fun _ => plain RElse) nospace digits_list (start 0)
      (OTrue [VSink [[VLex 0 1]; [VLex 3 4]]]) s /\ pos s = 5 /\ errors (rev (trace s)) = [(TUser 1, 2, 2)]) /\
  (exists s, Runs (str "1,,2") (fun _ => plain RElse) nospace (RLst (RSeq [RCap digit]) comma) (start 0) OFalse s /\
      pos s = 2 /\ errors (rev (trace s)) = [(TUser 1, 2, 2)]).
Proof.
  split; [runs|]. split; eexists; (split; [runs|]); split; reflexivity.
Qed.

(** ** C39: recovery *)
Theorem C39_find : forall inp prods c f s o s', pos s <= length inp ->
  (Runs inp prods c (RFind f) s o s' <->
   exists q found, first_at inp f (pos s) q found /\
     o = (if found then OTrue [] else OFalse) /\
     s' = setpos q (emits [ERStart (pos s); EToken KError (pos s) q;
                           if found then ERFinish q else ERCancel q] s)).
Proof. intros inp prods c f s o s' H. now apply find_runs. Qed.
Print Assumptions C39_find.

(** try_(rule, recovery): the recovery rule runs exactly when the rule has failed, from where it
    failed. *)
Theorem C39_try : forall inp prods c r rec s, pos s <= length inp ->
  (forall o s', Runs inp prods c (RTry r rec) s o s' ->
     (exists s1, Runs inp prods c r s OFalse s1 /\ Runs inp prods c (recovery rec) s1 o s') \/
     (exists vs, o = OTrue vs /\ Runs inp prods c r s (OTrue vs) s')) /\
  (forall s1 o s', Runs inp prods c r s OFalse s1 -> Runs inp prods c (recovery rec) s1 o s' ->
     Runs inp prods c (RTry r rec) s o s').
Proof.
  intros inp prods c r rec s Hp. split.
  - intros o s'. now apply try_runs.
  - intros s1 o s'. now apply try_recovers.
Qed.
Print Assumptions C39_try.

Example C39_example :
  Runs (str "xyz;1") (fun _ => plain RElse) nospace (RTry digit (Some (RFind (lit_finder (str ";") [])))) (start 0)
    (OTrue []) (St 3 0 true [] [ERFinish 3; EToken KError 0 3; ERStart 0; EError (TUser 1) 0 0; EToken KError 0 0]) /\
  Runs (str "1yz;1") (fun _ => plain RElse) nospace (RTry digit (Some (RFind (lit_finder (str ";") [])))) (start 0)
    (OTrue []) (St 1 0 true [] [EToken (KUser 1) 0 1]).
Proof. split; runs. Qed.

(** ** C40: the recursion limit *)
(** How many uses of production [q] are open after the events [es] (newest first). *)
Fixpoint open_prods (q : nat) (es : list event) : nat :=
  match es with
  | [] => 0
  | EPStart q' _ :: es => (if q' =? q then 1 else 0) + open_prods q es
  | EPFinish q' _ :: es | EPCancel q' _ :: es => open_prods q es - (if q' =? q then 1 else 0)
  | _ :: es => open_prods q es
  end.

(** The claim in full: recurse fails with max_recursion_depth_exceeded exactly when the current
    nesting has reached the limit, whatever was parsed before.  It is false: the depth counter is
    not decremented on failure (production.hpp:160-172), so every failure that is recovered from
    uses up one level.  A value is a digit or a value in parentheses, at most two levels deep:
    "((1))" is fine, but in "(x),(x),(1)" the last element, which nests once, is rejected with the
    limit error, while only one use of the production is open, i.e. none of them is recursive. *)
Definition shallow (p : nat) : production :=
  match p with
  | 0 => Production (p_rule (values 0)) false (Some (lit " ")) false 2
  | p => values p
  end.
Theorem C40_refuted :
  (exists vs s, action (str "((1))") shallow 100 0 = Res (OTrue vs) s 0 /\ errors (rev (trace s)) = [] /\
     open_prods 1 (skipn 12 (trace s)) = 3) /\
  (exists o s m, action (str "(x),(x),(1)") shallow 100 0 = Res o s m /\
     nth 9 (trace s) (EBack 0 0) = EError TDepth 9 9 /\ open_prods 1 (skipn 10 (trace s)) = 1).
Proof.
  split.
  - eexists _, _. split; [vm_compute; reflexivity|]. vm_compute. auto.
  - eexists _, _, _. split; [vm_compute; reflexivity|]. vm_compute. auto.
Qed.
Print Assumptions C40_refuted.

(** What holds: the check is exactly [limit <= depth], it consumes nothing, and otherwise the
    production is parsed one level deeper and a success gives the level back. *)
Theorem C40_check : forall inp prods c p t s o s',
  (cx_max c <> 0 -> cx_max c <= depth s ->
   (Runs inp prods c (RRec p t) s o s' <-> o = OFalse /\ s' = emit (EError t (pos s) (pos s)) s)) /\
  (pos s <= length inp -> depth s < cx_max c ->
   (Runs inp prods c (RRec p t) s o s' <->
    exists s1, Runs inp prods c (RProd p) (setdepth (S (depth s)) s) o s1 /\
      s' = match o with OTrue _ => setdepth (pred (depth s1)) s1 | _ => s1 end)).
Proof. intros inp prods c p t s o s'. split; [apply rec_limit|apply rec_runs]. Qed.
Print Assumptions C40_check.

(** In a grammar that never resumes after a failure (no try_, no list with terminator) every rule
    that succeeds restores the depth: it depends on the nesting only, not on what was parsed. *)
Definition never_resumes (r : rule) : bool := calm true false (fun _ => false) false true r.
Theorem C40_partial : forall inp prods, (forall p, never_resumes (p_rule (prods p)) = true) ->
  (forall c r s vs s', never_resumes r = true -> Runs inp prods c r s (OTrue vs) s' -> depth s' = depth s) /\
  (forall n p vs s m, action inp prods n p = Res (OTrue vs) s m -> depth s = 0).
Proof.
  intros inp prods Hg.
  assert (H1 : forall c r s vs s', never_resumes r = true -> Runs inp prods c r s (OTrue vs) s' -> depth s' = depth s).
  { intros c r s vs s' Hr H.
    pose proof (runs_same inp prods true false (fun _ => false) Hg ltac:(discriminate) c r s _ s' Hr H) as (Hd & _).
    now apply Hd. }
  split; [exact H1|]. intros n p vs s m H. apply action_runs in H. destruct H as (s1 & s2 & Hw & Hr & ->).
  change (depth s2 = 0). rewrite (H1 _ _ _ _ _ (Hg p) Hr). clear - Hw. unfold Ws in Hw. cbn [cx_ws wsf] in Hw.
  destruct (p_ws (prods p)) as [w|]; [|now subst]. unfold SkipWs in Hw.
  destruct (token_rule (strip_ws w)); [destruct Hw as (e & _ & ->)|destruct Hw as (v & t & _ & ->)]; reflexivity.
Qed.
Print Assumptions C40_partial.

(** A nested value without recovery. *)
Definition nested (p : nat) : production :=
  plain (RChc [RCap digit; RBr (lit "(") [RRec 1 TDepth; lit ")"]]).
Example C40_example : never_resumes (p_rule (nested 0)) = true /\
  (exists s, action (str "(((1)))") nested 100 0 =
     Res (OTrue [VProd 1 [VProd 1 [VProd 1 [VLex 3 4]]]]) s 0 /\ depth s = 0) /\
  Runs (str "(1)") nested nospace (RRec 1 TDepth) (setdepth 3 (start 0)) OFalse (St 0 3 true [] [EError TDepth 0 0]).
Proof. split; [reflexivity|]. split; [eexists; vm_compute; auto|runs]. Qed.

(** ** C41: whitespace *)
(** Skipping applies the whitespace rule as often as it matches and reports one token
    ([WsEnd w p e]: it matches again and again from [p], and no longer at [e]; for a
    whitespace rule that is not a token: [SkipWs] in RuleCtl.v).  It happens after every token, if a whitespace rule is in force and the
    flag is on; *)
Theorem C41_after_token : forall inp prods c r s vs s', is_token r ->
  (Runs inp prods c r s (OTrue vs) s' <->
   exists e, Matches inp prods r (pos s) true e /\ Ws inp prods c (tok_done r s e) s' /\ vs = []).
Proof. exact token_runs. Qed.
Print Assumptions C41_after_token.

(** at the start of the input; *)
Theorem C41_at_start : forall inp prods n p vs s m, action inp prods n p = Res (OTrue vs) s m ->
  let c := Cx (p_ws (prods p)) (p_max (prods p)) in
  exists s1 s2, Ws inp prods c (St 0 0 true [] [EPStart p 0; EGStart 0]) s1 /\
    Runs inp prods c (p_rule (prods p)) s1 (OTrue vs) s2 /\
    s = emit (EGFinish (pos s2)) (emit (EPFinish p (pos s2)) s2).
Proof. exact action_runs. Qed.
Print Assumptions C41_at_start.

(** and at the start of a production with its own whitespace; a production is parsed with its own
    whitespace rule, a token production with none but its own, others with the surrounding one;
    after a token production the surrounding whitespace is skipped. *)
Theorem C41_production : forall inp prods c p s vs s',
  Runs inp prods c (RProd p) s (OTrue vs) s' <->
  exists s1 s2 v,
    match p_ws (prods p) with
    | Some _ => Ws inp prods (child_cx prods c p) (emit (EPStart p (pos s)) s) s1
    | None => s1 = emit (EPStart p (pos s)) s
    end /\
    Runs inp prods (child_cx prods c p) (p_rule (prods p)) s1 (OTrue v) s2 /\
    (if p_token (prods p) then Ws inp prods c (emit (EPFinish p (pos s2)) s2) s'
     else s' = emit (EPFinish p (pos s2)) s2) /\
    vs = [VProd p v].
Proof. exact prod_runs. Qed.
Print Assumptions C41_production.

(** Inside a token production nothing is skipped: the number of whitespace tokens stays the same.
    ([bare qp r]: the rule does not mention whitespace() and uses only productions in [qp], which
    do not define whitespace and are such rules themselves.) *)
Theorem C41_token_production : forall inp prods qp c p s o s',
  (forall p, qp p = true -> p_ws (prods p) = None /\ bare qp (p_rule (prods p)) = true) ->
  p_token (prods p) = true -> p_ws (prods p) = None -> bare qp (p_rule (prods p)) = true ->
  Runs inp prods (child_cx prods c p) (p_rule (prods p)) s o s' -> nws (trace s') = nws (trace s).
Proof.
  intros inp prods qp c p s o s' Hq Ht Hw Hb H. eapply runs_nows; [exact Hq| |exact Hb|exact H].
  cbn. now rewrite Ht, Hw.
Qed.
Print Assumptions C41_token_production.

(** no_whitespace(rule), the claim in full: nothing is skipped inside, and skipping is in force
    again afterwards.  False in two ways.  After a failure inside no_whitespace() the flag is not
    restored (whitespace.hpp:257-266), so a parse that recovers goes on without skipping; here
    "ab; c" is accepted, in "ax; c" the space is not skipped and c not found. *)
Definition leaky (p : nat) : production :=
  spaced (RSeq [RTryT None (RNoWs (RSeq [lit "a"; lit "b"])) (Some (RFind (lit_finder (str ";") [])));
                lit ";"; lit "c"]).
Theorem C41_failure_refuted :
  (exists s, action (str "ab; c") leaky 100 0 = Res (OTrue []) s 0 /\ errors (rev (trace s)) = []) /\
  (exists s, action (str "ax; c") leaky 100 0 = Res OFalse s 0 /\
     errors (rev (trace s)) = [(TUser 0, 1, 1); (TUser 0, 3, 3)] /\ wsf s = false).
Proof. split; eexists; vm_compute; auto. Qed.
Print Assumptions C41_failure_refuted.

(** And an inner no_whitespace() switches skipping on for the rest of an outer one: "ab c" is
    accepted where no whitespace is allowed. *)
Definition twice_off (p : nat) : production :=
  spaced (RNoWs (RSeq [RNoWs (lit "a"); lit "b"; lit "c"])).
Theorem C41_nested_refuted :
  (exists s, action (str "ab c") twice_off 100 0 = Res (OTrue []) s 0 /\ In (EToken KWhitespace 2 3) (trace s)) /\
  (exists s, action (str "ab c") (fun _ => spaced (RNoWs (RSeq [lit "a"; lit "b"; lit "c"]))) 100 0 = Res OFalse s 0).
Proof. split; eexists; [split; [vm_compute; reflexivity|cbn; auto 10]|vm_compute; reflexivity]. Qed.
Print Assumptions C41_nested_refuted.

(** What holds, for rules without try_, list with terminator, nested no_whitespace(), break_ and
    return_ inside: nothing is skipped until the rule is through, the flag is on again after it,
    and the whitespace after it is skipped.  ([calm false true qp ...]: those rules; [qp] are the
    productions that may be used while skipping is off.) *)
Definition ws_calm (qp : nat -> bool) (on : bool) (r : rule) : bool := calm false true qp false on r.
Theorem C41_no_whitespace_partial : forall inp prods qp c r w s vs s',
  (forall p, ws_calm qp true (p_rule (prods p)) = true) ->
  (forall p, qp p = true -> ws_calm qp false (p_rule (prods p)) = true) ->
  ws_calm qp false r = true -> noesc r = true -> pos s <= length inp -> cx_ws c = Some w ->
  Runs inp prods c (RNoWs r) s (OTrue vs) s' ->
  exists l s1 s2, Goes inp prods c r (setwsf false s) l s1 vs /\
    nws (trace s1) = nws (trace s) /\ wsf s1 = false /\
    Ws inp prods c (setwsf true s1) s2 /\ s' = unlinks l s2.
Proof.
  intros inp prods qp c r w s vs s' Hg Hq Hc Hn Hp Hw H.
  destruct (nows_runs inp prods c r w s vs s' Hp Hn Hw H) as (l & s1 & s2 & Hgo & H1 & H2).
  exists l, s1, s2. pose proof Hgo as (_ & n & Hd).
  destruct (goes_same inp prods false true qp Hg Hq c r (setwsf false s) n l s1 vs Hc Hn Hd) as (_ & Hs & _).
  destruct (Hs eq_refl) as [Hf Hx]. split; [exact Hgo|]. split; [now apply Hx|]. auto.
Qed.
Print Assumptions C41_no_whitespace_partial.

(** In such grammars every success restores the flag. *)
Theorem C41_flag_partial : forall inp prods qp,
  (forall p, ws_calm qp true (p_rule (prods p)) = true) ->
  (forall p, qp p = true -> ws_calm qp false (p_rule (prods p)) = true) ->
  forall c r s vs s', ws_calm qp (wsf s) r = true -> Runs inp prods c r s (OTrue vs) s' ->
  wsf s' = wsf s /\ (wsf s = false -> nws (trace s') = nws (trace s)).
Proof.
  intros inp prods qp Hg Hq c r s vs s' Hc H.
  destruct (runs_same inp prods false true qp Hg Hq c r s _ s' Hc H) as (_ & Hs & _). now apply Hs.
Qed.
Print Assumptions C41_flag_partial.

Definition number (p : nat) : production :=
  match p with
  | 0 => spaced (RSeq [RProd 1; RNoWs (RSeq [lit "a"; lit "b"]); lit "c"])
  | _ => Production (RSeq [digit; digit]) true None false 10
  end.
Example C41_example :
  (forall p, ws_calm (fun _ => false) true (p_rule (number p)) = true) /\
  (exists s, action (str " 12  ab c") number 100 0 = Res (OTrue [VProd 1 []]) s 0 /\ pos s = 9 /\
    filter ws_event (rev (trace s)) = [EToken KWhitespace 0 1; EToken KWhitespace 3 5; EToken KWhitespace 7 8; EToken KWhitespace 9 9]) /\
  (exists s, action (str "1 2ab c") number 100 0 = Res OFalse s 0) /\
  (exists s, action (str "12a b c") number 100 0 = Res OFalse s 0).
Proof. split; [intros [|p]; reflexivity|]. repeat split; eexists; vm_compute; auto. Qed.

(** ** C42: context variables *)
(** Creating a variable: the rest of the sequence sees it, as the innermost one, with its initial
    value; at the end it is gone. *)
Theorem C42_create : forall inp prods c id v rs s o s', pos s <= length inp ->
  (Runs inp prods c (RSeq (RCtxNew id v :: rs)) s o s' <->
   exists s1, Runs inp prods c (RSeq rs) (setvars ((id, v) :: vars s) s) o s1 /\
     s' = unlink (length (vars s)) s1) /\
  (forall s1, Runs inp prods c (RSeq rs) (setvars ((id, v) :: vars s) s) o s1 ->
     exists w l, vars s1 = (id, w) :: l /\ vars (unlink (length (vars s)) s1) = l /\ map fst l = map fst (vars s)).
Proof.
  intros inp prods c id v rs s o s' Hp. split; [apply create_runs|].
  intros s1 H. apply create_vars in H; auto. destruct H as (w & l & H1 & H2 & H3). exists w, l.
  repeat split; auto. eapply assigned_names; eauto.
Qed.
Print Assumptions C42_create.

(** Whatever is parsed - rules, productions, failures, recoveries -, afterwards the variables are
    the same ones, and only the innermost variable of each name may have another value.  A
    variable of that name further out keeps its value while a newer one hides it. *)
Theorem C42_scope : forall inp prods c r s o s', pos s <= length inp -> Runs inp prods c r s o s' ->
  map fst (vars s') = map fst (vars s) /\ assigned [] (vars s) (vars s') /\
  (forall id, vget id (vars s) = None -> vget id (vars s') = None) /\
  (forall id v rs, r = RSeq (RCtxNew id v :: rs) -> vget id (vars s') = vget id (vars s)).
Proof.
  intros inp prods c r s o s' Hp H. pose proof (Runs_assigned _ _ _ _ _ _ _ Hp H) as Ha.
  split; [eapply assigned_names; eauto|]. split; auto. split.
  - intros id. eapply as_dom; eauto.
  - intros id v rs ->. apply create_runs in H. destruct H as (s1 & H & ->).
    apply create_vars in H; auto. destruct H as (w & l & H1 & H2 & H3). rewrite H3.
    eapply as_same; eauto; now left.
Qed.
Print Assumptions C42_scope.

(** set/reset/inc/dec write, value() reads the innermost variable of the name; an assignment is
    not undone by the end of the production it is in. *)
Theorem C42_assign : forall inp prods c s,
  (forall id b o s', Runs inp prods c (RCtxSet id b) s o s' -> o = OTrue [] /\ vget id (vars s') = Some (VBool b) /\
     forall j, j <> id -> vget j (vars s') = vget j (vars s)) /\
  (forall id d o s', Runs inp prods c (RCtxAdd id d) s o s' -> o = OTrue [] /\
     (exists z, vget id (vars s) = Some (VInt z) /\ vget id (vars s') = Some (VInt (z + d))) /\
     forall j, j <> id -> vget j (vars s') = vget j (vars s)) /\
  (forall id o s', Runs inp prods c (RCtxVal id) s o s' <->
     exists v, vget id (vars s) = Some v /\ o = OTrue [v] /\ s' = s) /\
  (forall p vs s', Runs inp prods c (RProd p) s (OTrue vs) s' -> exists s1 s2 v,
     vars s1 = vars s /\ Runs inp prods (child_cx prods c p) (p_rule (prods p)) s1 (OTrue v) s2 /\ vars s' = vars s2).
Proof.
  intros inp prods c s.
  assert (Hws : forall c a b, Ws inp prods c a b -> vars b = vars a).
  { intros c0 a b. unfold Ws, SkipWs. destruct (cx_ws c0) as [w|]; [|now intros ->].
    destruct (wsf a); [|now intros ->]. destruct (token_rule (strip_ws w));
      [intros (e & _ & ->)|intros (v & t & _ & ->)]; reflexivity. }
  repeat split; intros; try (apply set_runs in H; destruct H as (H1 & (w & H2) & ->)); auto.
  - cbn. eapply vget_vset; eauto.
  - cbn. now apply vget_vset_other; auto.
  - apply add_runs in H. apply H.
  - apply add_runs in H. destruct H as (_ & z & H2 & ->). exists z. split; auto. cbn. eapply vget_vset; eauto.
  - apply add_runs in H. destruct H as (_ & z & H2 & ->). cbn. now apply vget_vset_other; auto.
  - now apply val_runs in H.
  - now apply val_runs.
  - apply prod_runs in H. destruct H as (s1 & s2 & v & H1 & H2 & H3 & _). exists s1, s2, v. repeat split; auto.
    + destruct (p_ws (prods p)); [now apply Hws in H1|now subst].
    + destruct (p_token (prods p)); [now apply Hws in H3|now subst].
Qed.
Print Assumptions C42_assign.

(** The outer variable 0 is 1, the production creates its own 0, changes it to 15 and adds 100 to the outer
    variable 1. *)
Definition scopes (p : nat) : production :=
  match p with
  | 0 => plain (RSeq [RCtxNew 0 (VInt 1); RCtxNew 1 (VInt 2); RProd 1; RCtxVal 0; RCtxVal 1])
  | _ => plain (RSeq [RCtxNew 0 (VInt 10); RCtxAdd 0 5; RCtxAdd 1 100; RCtxVal 0])
  end.
Example C42_example : exists s, action (str "") scopes 100 0 =
  Res (OTrue [VProd 1 [VInt 15]; VInt 1; VInt 102]) s 0 /\ vars s = [].
Proof. eexists. vm_compute. auto. Qed.

(** ** C43: combinations *)
(** In one round an alternative is chosen as in a choice: item [i] is the first whose condition
    matches. *)
Theorem C43_round : forall inp prods c els rs s o s', pos s <= length inp -> forallb noesc rs = true ->
  2 <= length (rs ++ els_alts els) ->
  (Runs inp prods c (comb_choice els rs) s o s' <->
   (exists i vs, o = OItem i vs /\ Picks inp prods c rs s i (OTrue vs) s') \/
   (exists i, o = OFalse /\ Picks inp prods c rs s i OFalse s') \/
   (exists e es b, els = Some e /\ Skips inp prods rs s es /\ Tries inp prods e s true b /\
      Finishes inp prods c e b (emits es s) o s') \/
   (o = OFalse /\ exists es, Skips inp prods (rs ++ els_alts els) s es /\
      s' = emit (EError TExhausted (pos s) (pos s)) (emits es s))).
Proof. exact comb_round. Qed.
Print Assumptions C43_round.

(** combination(rs...): rounds until every item was there; items may come in any order; one that
    comes again is reported as a duplicate over its whole range, its values dropped. The values
    are those of the items in the order of the input.  ([Comb], RuleChain.v: the rounds.) *)
Theorem C43_combination : forall inp prods c dup rs s vs s',
  forallb (tame false true (fun _ => false)) rs = true -> forallb no_items rs = true ->
  (Runs inp prods c (RComb dup None rs) s (OTrue vs) s' <->
   exists l, Comb inp prods c dup (comb_choice None rs) (length rs) [] s l s' /\ vs = [VSink (RuleChain.values l)]) /\
  (forall l, Comb inp prods c dup (comb_choice None rs) (length rs) [] s l s' ->
     Permutation (map fst l) (seq 0 (length rs))).
Proof.
  intros inp prods c dup rs s vs s' Hb Hi.
  assert (Ho : items_ok inp prods (length rs) c (comb_choice None rs)) by (apply comb_items_ok; auto).
  split; [now apply comb_runs|]. intros l Hl. eapply comb_complete; eauto. apply comb_no_break; auto.
Qed.
Print Assumptions C43_combination.

(** partial_combination(rs...) stops as soon as no item matches ([els] is break_): every item at
    most once. *)
Theorem C43_partial_combination : forall inp prods c dup els rs s vs s',
  forallb no_items rs = true -> no_items els = true ->
  (Runs inp prods c (RComb dup (Some els) rs) s (OTrue vs) s' <->
   exists l, Comb inp prods c dup (comb_choice (Some els) rs) (length rs) [] s l s' /\
     vs = [VSink (RuleChain.values l)]) /\
  (forall l, Comb inp prods c dup (comb_choice (Some els) rs) (length rs) [] s l s' ->
     NoDup (map fst l) /\ forall i, In i (map fst l) -> i < length rs).
Proof.
  intros inp prods c dup els rs s vs s' Hi He.
  assert (Ho : items_ok inp prods (length rs) c (comb_choice (Some els) rs)) by (apply comb_items_ok; auto).
  split; [now apply comb_runs|]. intros l Hl. destruct (Comb_new _ _ _ _ _ _ _ _ _ _ Ho Hl) as [H1 H2].
  split; auto. intros i H. now apply H2.
Qed.
Print Assumptions C43_partial_combination.

(** flags: the value is the bitwise or of the default and all flags in the input; a flag all of
    whose bits are already there is reported. *)
Theorem C43_flags : forall inp prods c r d t s vs s',
  Runs inp prods c (RFlags r d t) s (OTrue vs) s' <->
  exists l, Flags inp prods c r t d s l s' /\ vs = [VInt (fold_left Z.lor l d)].
Proof. exact flags_runs. Qed.
Print Assumptions C43_flags.

Definition abc : list rule := [RCap (lit "a"); RBr (lit "b") [RCap digit]; lit "c"].
Definition rwx : rule :=
  RSym (RTok (class_tok (KUser 2) (TUser 2) (fun _ => true)))
       (fun w => match w with [114%N] => Some 4%Z | [119%N] => Some 2%Z | [120%N] => Some 1%Z | _ => None end) TSymbol.
Example C43_example :
  forallb (tame false true (fun _ => false)) abc = true /\ forallb no_items abc = true /\
  (exists s, Runs (str "b1ca") (fun _ => plain RElse) nospace (RComb TDup None abc) (start 0)
     (OTrue [VSink [[VLex 1 2]; [VLex 3 4]]]) s /\ errors (rev (trace s)) = []) /\
  (exists s, Runs (str "b1ab2c") (fun _ => plain RElse) nospace (RComb TDup None abc) (start 0)
     (OTrue [VSink [[VLex 1 2]; [VLex 2 3]]]) s /\ errors (rev (trace s)) = [(TDup, 3, 5)]) /\
  (exists s, Runs (str "ca!") (fun _ => plain RElse) nospace (RComb TDup (Some RBreak) abc) (start 0)
     (OTrue [VSink [[VLex 1 2]]]) s /\ pos s = 2 /\ errors (rev (trace s)) = []) /\
  (exists s, Runs (str "xrx-") (fun _ => plain RElse) nospace (RFlags rwx 0 TFlag) (start 0)
     (OTrue [VInt 5]) s /\ pos s = 3 /\ errors (rev (trace s)) = [(TFlag, 2, 3)]).
Proof. repeat split; eexists; (split; [runs|]); vm_compute; auto. Qed.

(** ** C44: times and repeat *)
(** times<n>: exactly [n] items, with the separator exactly in between; the values in order. *)
Theorem C44_times : forall inp prods c n r sep s vs s', n <> 0 -> pos s <= length inp ->
  noesc r = true -> flat r = true -> sep_ok noesc sep = true -> sep_ok flat sep = true ->
  (Runs inp prods c (RTimes n r sep) s (OTrue vs) s' <->
   exists l, Repeated inp prods c r sep n s l s' /\ vs = concat l).
Proof. exact times_runs. Qed.
Print Assumptions C44_times.

(** repeat(count): first the count, then exactly that many items. *)
Theorem C44_repeat : forall inp prods c m count item sep s vs s',
  Runs inp prods c (RRep m count item sep) s (OTrue vs) s' <->
  exists cv s1 n l, Runs inp prods c count s (OTrue cv) s1 /\ count_of cv = Some n /\
    Repeated inp prods c item sep n s1 l s' /\
    vs = match m with RepDiscard => [] | RepList => [VSink l] | RepCapture => [VLex (pos s1) (pos s')] end.
Proof. exact repeat_runs. Qed.
Print Assumptions C44_repeat.

(** A digit as a count. *)
Definition count : rule :=
  RSym digit (fun w => match w with [u] => Some (Z.of_N (u - 48)) | _ => None end) TSymbol.
Example C44_example :
  flat (RCap digit) = true /\ noesc (RCap digit) = true /\ sep_ok flat comma = true /\ sep_ok noesc comma = true /\
  (exists s, Runs (str "1,2,3,4") (fun _ => plain RElse) nospace (RTimes 3 (RCap digit) comma) (start 0)
     (OTrue [VLex 0 1; VLex 2 3; VLex 4 5]) s /\ pos s = 6 /\ errors (rev (trace s)) = [(TTrailing, 5, 6)]) /\
  (exists s, Runs (str "2xyz") (fun _ => plain RElse) nospace
       (RRep RepList count (RCap (RTok (class_tok (KUser 2) (TUser 2) (fun _ => true)))) None) (start 0)
     (OTrue [VSink [[VLex 1 2]; [VLex 2 3]]]) s /\ pos s = 3) /\
  (exists s, Runs (str "4xyz") (fun _ => plain RElse) nospace
       (RRep RepList count (RCap (RTok (class_tok (KUser 2) (TUser 2) (fun _ => true)))) None) (start 0) OFalse s).
Proof.
  repeat split; eexists; try (split; [runs|]); try runs; vm_compute; auto.
Qed.

(** ** C65: captures *)
Theorem C65_capture_token : forall inp prods c r s vs s',
  Runs inp prods c (RCap r) s (OTrue vs) s' <->
  exists e, Matches inp prods r (pos s) true e /\ Ws inp prods c (tok_done r s e) s' /\ vs = [VLex (pos s) e].
Proof. exact capture_runs. Qed.
Print Assumptions C65_capture_token.

(** capture(rule): the lexeme goes from where the rule began to where it ended - the state [s1] -
    and the whitespace after it is skipped later. *)
Theorem C65_capture_rule : forall inp prods c r s vs s', pos s <= length inp -> noesc r = true ->
  Runs inp prods c (RCapR r) s (OTrue vs) s' ->
  exists n l s1 v s2, is_den true (fun k a => e_parse (eng inp prods n) c r k s a) (DNext l s1 v) /\ T inp l s s1 /\
    Ws inp prods c s1 s2 /\ s' = unlinks l s2 /\ vs = VLex (pos s) (pos s1) :: v.
Proof. exact capture_rule_runs. Qed.
Print Assumptions C65_capture_rule.

(** repeat(...).capture() is documented to be like capture; its lexeme includes the whitespace
    after the last item. *)
Theorem C65_repeat_capture_refuted :
  (exists s, Runs (str "2xx  y") (fun _ => plain RElse) space (RRep RepCapture count (lit "x") None) (start 0)
     (OTrue [VLex 1 5]) s) /\
  (exists s, Runs (str "2xx  y") (fun _ => plain RElse) space (RSeq [count; RCapR (RSeq [lit "x"; lit "x"])]) (start 0)
     (OTrue [VInt 2; VLex 1 3]) s).
Proof. split; eexists; runs. Qed.
Print Assumptions C65_repeat_capture_refuted.

Example C65_example :
  (exists s, Runs (str "ab  c") (fun _ => plain RElse) space (RCap (lit "ab")) (start 0) (OTrue [VLex 0 2]) s /\ pos s = 4) /\
  (exists s, Runs (str "a b  c") (fun _ => plain RElse) space (RCapR (RSeq [lit "a"; lit "b"])) (start 0)
    (OTrue [VLex 0 3]) s /\ pos s = 5) /\ noesc (RSeq [lit "a"; lit "b"]) = true.
Proof. repeat split; eexists; (split; [runs|]); vm_compute; auto. Qed.
