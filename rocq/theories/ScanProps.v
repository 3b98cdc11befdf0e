(** Property theorems C63: the scanner. *)
From Verif Require Import Prelude RuleModel RuleSpec RuleDen RuleGood RuleMono RuleSem RuleSemProps RuleSample ActionModel ScanModel ScanSpec ScanProofs.
From Coq Require Import String.
Close Scope N_scope.
Close Scope string_scope.

(** Whatever a program does with a scanner that has failed, short of using a recovery guard: it
    stays failed, its position does not change, every operation answers that it failed and leaves
    the result alone (so a fresh one stays without value), and no event happens except the errors
    that the program reports itself. *)
Theorem C63_stays_failed : forall inp E c sc log sc', history inp E c sc log sc' ->
  sc_state sc = Failed -> Forall (fun x => quiet (fst x)) log ->
  sc_state sc' = Failed /\ sc_pos sc' = sc_pos sc /\
  trace (sc_st sc') = rev (own_errors log) ++ trace (sc_st sc) /\
  vars (sc_st sc') = vars (sc_st sc) /\
  Forall (fun x => failed_answer (fst x) (snd x)) log.
Proof.
  intros inp E c sc log sc' H Hf Hq. destruct (stays_failed _ _ _ _ _ _ H Hf Hq) as (H1 & H2 & H3).
  unfold sc_pos. rewrite H2. auto.
Qed.
Print Assumptions C63_stays_failed.

(** Once not ok, it is ok again only after a guard was finished. *)
Theorem C63_needs_recovery : forall inp E c sc log sc', history inp E c sc log sc' ->
  sc_ok sc = false -> sc_ok sc' = true -> exists a, In (OFinish, a) log.
Proof. exact needs_finish. Qed.
Print Assumptions C63_needs_recovery.

(** A guard can be made exactly if the scanner has failed; while it exists operations are
    performed; finishing it makes the scanner ok, cancelling it makes it failed again. *)
Theorem C63_recovery : forall inp E c sc a sc',
  ((exists x, sc_op inp E c sc ORecover = x /\ x <> SCrash) <-> sc_state sc = Failed) /\
  (sc_op inp E c sc ORecover = SRes a sc' ->
   sc_state sc' <> Failed /\ sc_ok sc' = false /\ sc_pos sc' = sc_pos sc) /\
  (sc_op inp E c sc OFinish = SRes a sc' -> sc_ok sc' = true /\ sc_pos sc' = sc_pos sc) /\
  (sc_op inp E c sc OCancel = SRes a sc' -> sc_state sc' = Failed /\ sc_pos sc' = sc_pos sc).
Proof.
  intros. cbn [sc_op]. split; [|split; [|split]].
  - destruct (sc_state sc); cbn; split; try discriminate; try (intros (x & <- & H); congruence).
    intros _. eexists. split; [reflexivity|discriminate].
  - destruct (is_failed (sc_state sc)); [|discriminate]. intros [= _ <-]. cbn. repeat split; discriminate.
  - destruct (sc_guards sc); [discriminate|]. intros [= _ <-]. cbn. auto.
  - destruct (sc_guards sc); [discriminate|]. intros [= _ <-]. cbn. auto.
Qed.
Print Assumptions C63_recovery.

(** A scanner that has not failed does what the rule does in a grammar ([Runs], [Takes],
    [Declines] as for C35-C44): the same events, the same position afterwards.  The result gets
    the values exactly if the rule succeeds; if it fails so does the scanner. *)
Theorem C63_parse : forall inp prods c n sc result r a sc', sc_state sc <> Failed ->
  sc_op inp (eng inp prods n) c sc (OParse result r) = SRes a sc' ->
  (Runs inp prods c r (sc_st sc) OFalse (sc_st sc') /\ sc_state sc' = Failed /\ a_result a = result) \/
  (exists vs, Runs inp prods c r (sc_st sc) (OTrue vs) (sc_st sc') /\ sc_state sc' = sc_state sc /\
     a_result a = Some (VAs vs)).
Proof. intros. eapply parse_op; eauto. Qed.
Print Assumptions C63_parse.
Theorem C63_branch : forall inp prods c n sc result r a sc', sc_state sc <> Failed ->
  sc_op inp (eng inp prods n) c sc (OBranch result r) = SRes a sc' ->
  (a_bool a = false /\ (exists es, Declines inp prods r (sc_st sc) es /\ sc_st sc' = emits es (sc_st sc)) /\
   sc_state sc' = sc_state sc /\ a_result a = result) \/
  (a_bool a = true /\ Takes inp prods c r (sc_st sc) OFalse (sc_st sc') /\ sc_state sc' = Failed /\ a_result a = result) \/
  (a_bool a = true /\ exists vs, Takes inp prods c r (sc_st sc) (OTrue vs) (sc_st sc') /\
   sc_state sc' = sc_state sc /\ a_result a = Some (VAs vs)).
Proof. intros. eapply branch_op; eauto. Qed.
Print Assumptions C63_branch.
(** peek says whether the rule matches, and neither moves nor fails; discard consumes the token
    if it matches and nothing otherwise. *)
Theorem C63_peek : forall inp prods c n sc r a sc', sc_state sc <> Failed ->
  sc_op inp (eng inp prods n) c sc (OPeek r) = SRes a sc' ->
  (exists e, Matches inp prods r (sc_pos sc) (a_bool a) e) /\
  sc_state sc' = sc_state sc /\ sc_pos sc' = sc_pos sc.
Proof.
  intros inp prods c n sc r a sc' Hf H. unfold OPeek in H. apply branch_op in H; [|exact Hf].
  destruct (C37_peek inp prods c r TPeek (sc_st sc)) as (_ & Ht & Hk). unfold sc_pos.
  destruct H as (_ & [(Hb & (es & (b & Hd & _) & Hs) & He & _)|[(Hb & H & _)|(Hb & vs & H & He & _)]]).
  - apply Ht in Hd. destruct Hd as (e & Hm & _). rewrite Hb, Hs. split; [eauto|]. split; auto.
  - destruct (Hk _ _ H) as [H' _]. discriminate.
  - destruct (Hk _ _ H) as (_ & b & e & Hs). destruct H as (b' & Hd & _). apply Ht in Hd. destruct Hd as (e' & Hm & _).
    rewrite Hb, Hs. split; [eauto|]. split; auto.
Qed.
Print Assumptions C63_peek.
Theorem C63_discard : forall inp prods c n sc t a sc', sc_state sc <> Failed ->
  sc_op inp (eng inp prods n) c sc (ODiscard t) = SRes a sc' ->
  sc_state sc' = sc_state sc /\
  exists e, Matches inp prods t (sc_pos sc) (a_bool a) e /\
    sc_pos sc' = (if a_bool a then e else sc_pos sc) /\
    trace (sc_st sc') = EToken KError (sc_pos sc) (sc_pos sc') :: trace (sc_st sc).
Proof.
  intros inp prods c n sc t a sc' Hf H. apply discard_op in H; [|exact Hf].
  destruct H as (_ & H1 & e & e' & H2 & H3 & H4). split; [exact H1|]. exists e. unfold sc_pos. rewrite H4. cbn.
  repeat split; auto.
Qed.
Print Assumptions C63_discard.

(** [error] and [fatal_error] report one error, wherever the scanner is, and move nothing.  After
    [fatal_error] the scanner has failed; [error] leaves it ok if it was ok. *)
Theorem C63_own_error : forall inp E c sc t b e a sc',
  (sc_op inp E c sc (OError t b e) = SRes a sc' ->
   sc_state sc' = sc_state sc /\ sc_pos sc' = sc_pos sc /\ errors (trace (sc_st sc')) = (t, b, e) :: errors (trace (sc_st sc))) /\
  (sc_op inp E c sc (OFatal t b e) = SRes a sc' ->
   sc_state sc' = Failed /\ sc_pos sc' = sc_pos sc /\ errors (trace (sc_st sc')) = (t, b, e) :: errors (trace (sc_st sc))).
Proof. intros. split; intros [= _ <-]; repeat split; reflexivity. Qed.
Print Assumptions C63_own_error.

(** [lexy::scan]: the result of [finish()] says success if the scanner is ok and there was no
    error, recovered if it is ok and there were errors, and fatal error exactly if it is not ok.
    The errors in the result are the error events.  (Hypotheses: find and recover are only used
    to recover, see C33; own errors have positions in the input.) *)
Theorem C63_finish : forall inp prods c tr n q log sc st errs es,
  guarded prods -> weakc c = false ->
  history inp (eng inp prods n) c (scan_start q) log sc ->
  Forall (fun x => own_error_in inp (fst x)) log -> Forall (fun x => strong (fst x)) log ->
  scan_finish tr q sc = (st, errs, es) ->
  List.map (fun r => (r_tag r, r_from r, r_to r)) errs = errors es /\
  (st = Success <-> sc_ok sc = true /\ errs = []) /\
  (st = Recovered <-> sc_ok sc = true /\ errs <> []) /\
  (st = Fatal <-> sc_ok sc = false).
Proof. exact finish_status. Qed.
Print Assumptions C63_finish.

(** If every guard was finished or cancelled, the events are those of a parse: tokens tile the
    consumed input, starts and ends are nested, positions are in the input. *)
Theorem C63_events : forall inp prods c tr n q log sc st errs es,
  history inp (eng inp prods n) c (scan_start q) log sc ->
  Forall (fun x => own_error_in inp (fst x)) log -> sc_guards sc = 0 ->
  scan_finish tr q sc = (st, errs, es) ->
  tile 0 es = Some (sc_pos sc) /\ segment 0 es (sc_pos sc) /\ balanced es /\
  Forall (ev_in (List.length inp)) es /\ sc_pos sc <= List.length inp.
Proof. exact finish_events. Qed.
Print Assumptions C63_events.

(** [dsl::scan] in a grammar: every run of a scan function is a history (so all of the above
    applies to it), its events fit into those of the grammar, and a scan function that parses a
    rule and returns the result is that rule. *)
Theorem C63_rule : forall inp prods c n u s result sc, pos s <= List.length inp ->
  sc_run inp (eng inp prods n) c u (Scanner s Normal 0) = PRes result sc ->
  exists log, history inp (eng inp prods n) c (Scanner s Normal 0) log sc /\
    (Forall (fun x => own_error_in inp (fst x)) log -> sc_guards sc = 0 ->
     exists es, trace (sc_st sc) = rev es ++ trace s /\ tile (pos s) es = Some (sc_pos sc) /\
       segment (pos s) es (sc_pos sc) /\ balanced es /\ Forall (ev_in (List.length inp)) es /\
       sc_pos sc <= List.length inp).
Proof. intros inp prods c n u s result sc. now apply rule_events. Qed.
Print Assumptions C63_rule.
Theorem C63_rule_parse : forall inp prods c n r k s args,
  scan_rule inp (eng inp prods (S n)) c false (fun _ => PDo (OParseT r) (fun a _ _ => PRet (a_result a))) k s args
  = e_parse (eng inp prods (S n)) c (RPas r) k s [].
Proof. exact rule_parse_as. Qed.
Print Assumptions C63_rule_parse.

(** "ax;b": parse "a", then "b" fails at "x"; another parse does nothing; recovery discards up to
    the semicolon and is finished; then "b" is parsed. *)
Definition skip_semi : rule := RTok (class_tok (KUser 2) (TUser 2) (fun u => negb (u =? 59)%N)).
Definition scan_ops : list op :=
  [OParseT (lit "a"); OParseT (lit "b"); OParseT (lit "x"); OPeek (lit "x"); ORecover; ODiscard skip_semi;
   OBranch None (lit "?"); OParseT (lit ";"); OFinish; OParseT (RCap (lit "b"))].
Fixpoint prog_of (ops : list op) (last : scan_result) : prog :=
  match ops with [] => PRet last | o :: ops => PDo o (fun a _ _ => prog_of ops (a_result a)) end.
Example C63_example :
  let E := eng (str "ax;b") (fun _ => plain RElse) 5 in
  exists sc, sc_run (str "ax;b") E nospace (prog_of scan_ops None) (scan_start 0)
    = PRes (Some (VAs [VLex 3 4])) sc /\ sc_ok sc = true /\ sc_pos sc = 4 /\
    rev (trace (sc_st sc)) =
      [EPStart 0 0; EToken (KUser 0) 0 1; EToken KError 1 1; EError (TUser 0) 1 1; ERStart 1;
       EToken KError 1 2; EToken (KUser 0) 2 3; ERFinish 3; EToken (KUser 0) 3 4] /\
    fst (fst (scan_finish (fun _ => false) 0 sc)) = Recovered.
Proof. eexists. vm_compute. repeat split; reflexivity. Qed.
