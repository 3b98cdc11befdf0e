(** Parsing ends. *)
From Verif Require Import Prelude RuleModel RuleSpec RuleDen RuleGood RuleMono RuleSem
  HaltBase HaltRules HaltRules2 HaltRules3 HaltRules4 HaltSpec.
Close Scope N_scope.

Section Halt.
Variable inp : list N.
Variable prods : nat -> production.
Notation eng := (eng inp prods).
Notation ev := (ev inp prods).
Notation ok := (ok inp).
Notation fw := (fw inp).
Notation EvG := (EvG inp prods).
Notation EvR := (EvR inp prods).
Notation TH := (TH inp prods).
Notation CH := (CH inp prods).
Notation MH := (MH inp prods).
Notation RH := (RH inp prods).
Notation WH := (WH inp prods).
Notation deep := (deep inp).
Notation full := (full inp prods).

Lemma WH_sub : WH sub_cx.
Proof. exact I. Qed.

Lemma deep_sub d p : p <= length inp -> deep sub_cx d (sub_st p).
Proof. intros H. split; [exact H|cbn; lia]. Qed.

(** ** Tokens *)
Lemma RH_of d r : full sub_cx d r -> RH r.
Proof.
  intros Hr p Hp.
  destruct (f_run inp prods sub_cx d r (sub_st p) Hr (deep_sub d p Hp)) as (x & Hx & N & HN).
  eexists. split; [|exists N; intros n Hn; unfold run_token; rewrite HN by exact Hn; reflexivity].
  destruct x as [[] s1 m| |]; cbn in Hx; try discriminate. tauto.
Qed.

Lemma MH_of d r : full sub_cx d r -> MH r.
Proof.
  intros Hr p Hp.
  assert (HR : exists x, x <> TNoFuel /\ ev (fun E => run_token E r p) x) by now apply (RH_of d).
  destruct r; try exact HR.
  - exists (TR (fst (tk_try t inp p)) (snd (tk_try t inp p))). split; [discriminate|]. exists 0. intros. reflexivity.
  - destruct Hr as (HT & _). destruct (HT [] p Hp) as (x & Hx & He).
    apply ev_shift in He. cbn [step e_try try_step] in He. destruct He as [N HN].
    exists (tmatch inp (eng N) (RTokOf k r) p). split.
    + intros Hm. specialize (HN N (le_n _)). rewrite Hm in HN. congruence.
    + destruct (ev_of inp prods TNoFuel (fun E => tmatch inp E (RTokOf k r) p) N _
        (mono_tmatch inp prods (RTokOf k r) p) eq_refl) as [M HM].
      * intros Hm. specialize (HN N (le_n _)). rewrite Hm in HN. congruence.
      * exists M. exact HM.
Qed.

(** ** Whitespace *)
Lemma wsloop_halts w : MH w -> match_advances inp prods w -> forall m p, p <= length inp -> length inp - p <= m ->
  exists x, x <> TNoFuel /\ ev (fun E => e_wsloop E w p) x.
Proof.
  intros HM Ha. induction m as [m IH] using lt_wf_ind. intros p Hp Hm.
  destruct (HM p Hp) as (x & Hx & He).
  assert (H : exists y, y <> TNoFuel /\ ev (fun E => wsloop_step inp E w p) y).
  { destruct x as [[] e| |].
    - pose proof (match_bounds inp prods _ _ _ _ Hp He) as Hb. specialize (Ha p e Hp He).
      destruct (IH (length inp - e) ltac:(lia) e ltac:(lia) (le_n _)) as (y & Hy & M & HY).
      exists y. split; auto. destruct He as [N HN]. exists (N + M). intros n Hn. unfold wsloop_step.
      rewrite HN by lia. apply HY. lia.
    - exists (TR true p). split; [discriminate|]. destruct He as [N HN]. exists N. intros n Hn.
      unfold wsloop_step. now rewrite HN.
    - congruence.
    - exists TCrash. split; [discriminate|]. destruct He as [N HN]. exists N. intros n Hn.
      unfold wsloop_step. now rewrite HN. }
  destruct H as (y & Hy & HY). exists y. split; auto. apply ev_shift. exact HY.
Qed.

Lemma wsloop_fw n w p f e : p <= length inp -> e_wsloop (eng n) w p = TR f e -> p <= e <= length inp.
Proof.
  intros Hp. destruct n; cbn [RuleModel.eng eng0 step e_wsloop]; [discriminate|].
  apply (wsloop_bounds inp prods _ (eng_good inp prods n)). exact Hp.
Qed.

Lemma goes_of c d r : advances inp prods r -> goes inp prods c d r.
Proof. intros H s vs s1 [Hs _] He. eapply (H c); [exact Hs|]. exists 0. exact He. Qed.
Lemma goesf_of c d r : taken_advances inp prods r -> goesf inp prods c d r.
Proof. intros H s bs vs s1 [Hs _] Ht He. eapply (H c); [exact Hs|]. exists bs. split; [exact Ht|exists 0; exact He]. Qed.
Lemma bites_of c d r : taken_moves inp prods r -> bites inp prods c d r.
Proof. intros H s bs vs s1 [Hs _] Ht He. eapply (H c); [exact Hs|]. exists bs. split; [exact Ht|exists 0; exact He]. Qed.
Lemma goesit_of c d r : item_advances inp prods r -> goesit inp prods c d r.
Proof. intros H s i vs s1 [Hs _] He. eapply (H c); [exact Hs|]. exists 0. exact He. Qed.

Lemma ws_halts d w m : full sub_cx d (strip_ws w) -> full sub_cx d (chc_or (strip_ws w) RBreak) ->
  ws_moves inp prods w -> WH (Cx (Some w) m).
Proof.
  intros Hw Hc Hm. unfold HaltBase.WH. cbn [cx_ws]. intros s Hs b J HJ. unfold skip_ws, ws_moves in *.
  destruct (token_rule (strip_ws w)).
  - destruct (wsloop_halts (strip_ws w) (MH_of d _ Hw) Hm _ (pos s) Hs (le_n _)) as (x & Hx & He).
    apply (G_on inp prods b s (fun E => e_wsloop E (strip_ws w) (pos s)) x
      (fun E x k a => match x with
        | TR _ e => J E k a (setpos e (emit (EToken KWhitespace (pos s) e) s))
        | TNoFuel => NoFuel
        | TCrash => Crash
        end) He).
    destruct x as [f e| |]; [|congruence|apply G_crash].
    apply ev_at in He. destruct He as [n He]. apply wsloop_fw in He; [|exact Hs].
    assert (Hf : fw s (setpos e (emit (EToken KWhitespace (pos s) e) s))) by (unfold HaltBase.fw; cbn; lia).
    eapply G_l; [exact Hf|]. now apply HJ.
  - assert (HL : full sub_cx d (RLoop (chc_or (strip_ws w) RBreak))).
    { apply full_loop; auto. now apply goes_of. }
    destruct (f_run inp prods sub_cx d _ _ HL (deep_sub d (pos s) Hs)) as (x & Hx & He).
    apply (G_on inp prods b s (fun E => e_parse E sub_cx (RLoop (chc_or (strip_ws w) RBreak)) final (sub_st (pos s)) []) x
      (fun E x k a => match x with
    | Res OFalse t _ =>
        Res OFalse (setpos (pos t) (emit (EToken KError (pos s) (pos t))
                                         (emits (rev (filter is_err (trace t))) s))) 0
    | Res (OTrue _) t _ =>
        J E k a (setpos (pos t) (emit (EToken KWhitespace (pos s) (pos t))
                                 (emits (rev (filter is_err (trace t))) s)))
    | Res _ _ _ => Crash
    | NoFuel => NoFuel
    | Crash => Crash
    end) He).
    destruct x as [[] t m1| |]; cbn [gr] in Hx; try apply G_crash; try tauto; destruct Hx as [[Hx _] ->].
    + apply G_false. unfold HaltBase.fw. cbn in *. lia.
    + assert (Hf : fw s (setpos (pos t) (emit (EToken KWhitespace (pos s) (pos t))
                                 (emits (rev (filter is_err (trace t))) s)))) by (unfold HaltBase.fw; cbn in *; lia).
      eapply G_l; [exact Hf|]. now apply HJ.
Qed.

Lemma WH_max c m : WH c -> WH (Cx (cx_ws c) m).
Proof. exact (fun H => H). Qed.

(** ** All rules at one depth of recursion *)
Section Level.
Variable d : nat.
Variable S R : nat -> Prop.
Hypothesis Hcall : forall q, S q -> forall c, WH c -> full c d (RProd q) /\ full c d (RSub q).
Hypothesis Hrec : forall q, R q -> (forall c, WH c -> forall d', d' < d -> full c d' (RProd q)) /\
  TH (RProd q) /\ CH (RProd q).

Definition lok (r : rule) : Prop := loop_moves inp prods r /\
  match r with
  | RProd q | RSub q => S q
  | RRec q _ | RRecB q _ => R q
  | _ => True
  end.

Definition both (c : cx) (r : rule) : Prop := full c d r /\ full c d (chc_or r RBreak).
Definition claim (r : rule) : Prop := forall c, WH c -> both c r /\ both c (strip_ws r).

Lemma both_of c r : full c d r -> (forall l, r <> RChc l) -> both c r.
Proof.
  intros H Hr. split; auto.
  assert (full c d (RChc [r; RBreak])).
  { apply full_chc. constructor; auto. constructor; auto. apply full_break. }
  destruct r; auto. now destruct (Hr rs).
Qed.

Lemma rounds_of c item sep :
  (if is_branch prods item then taken_advances inp prods item else advances inp prods item) \/
   match sep with Some (sr, _) => taken_advances inp prods sr | None => False end ->
  rounds inp prods c d item sep.
Proof.
  intros [H|H]; [left|right].
  - unfold goesi. destruct is_branch; [now apply goesf_of|now apply goes_of].
  - destruct sep as [[sr k]|]; auto. now apply goesf_of.
Qed.

Lemma tround_of c item sep :
  advances inp prods item /\ (is_branch prods item = true -> taken_advances inp prods item) /\
      match sep with Some (sr, _) => taken_moves inp prods sr
                   | None => is_branch prods item = true -> taken_moves inp prods item end ->
  tround inp prods c d item sep.
Proof.
  intros (H1 & H2 & H3). split; [now apply goes_of|]. split.
  - intros Hb. apply goesf_of. auto.
  - destruct sep as [[sr k]|]; [|intros Hb]; apply bites_of; auto.
Qed.


Lemma claim_of r : (forall l, r <> RChc l) -> (forall w, r <> RWs w) ->
  (forall c, WH c -> full c d r) -> claim r.
Proof.
  intros H1 H2 H c Hc. assert (both c r) by (apply both_of; auto). split; auto.
  destruct r; auto. now destruct (H2 r).
Qed.

Lemma claim_full r c : claim r -> WH c -> full c d r.
Proof. intros H Hc. apply (H c Hc). Qed.
Lemma claim_M r : claim r -> MH r.
Proof. intros H. apply (MH_of d). apply claim_full; auto. exact WH_sub. Qed.
Lemma claim_R r : claim r -> RH r.
Proof. intros H. apply (RH_of d). apply claim_full; auto. exact WH_sub. Qed.

Lemma level r : inside lok r -> claim r.
Proof.
  revert r. fix IH 1. intros r.
  assert (Hl : forall rs, (fix all (rs : list rule) : Prop :=
    match rs with [] => True | r :: rs => inside lok r /\ all rs end) rs -> Forall claim rs).
  { fix IHl 1. intros [|x rs] H; [constructor|]. destruct H as [H1 H2]. constructor; [exact (IH x H1)|exact (IHl rs H2)]. }
  assert (Ho : forall o, match o with Some r => inside lok r | None => True end ->
    match o with Some r => claim r | None => True end).
  { intros [x|] H; [exact (IH x H)|exact I]. }
  assert (Hs : forall o : option (rule * sepk), match o with Some (r, _) => inside lok r | None => True end ->
    match o with Some (r, _) => claim r | None => True end).
  { intros [[x k]|] H; [exact (IH x H)|exact I]. }
  intros Hr.
  assert (Fl : forall c rs, WH c -> Forall claim rs -> Forall (full c d) rs).
  { intros c rs Hc H. eapply Forall_impl; [|exact H]. intros x Hx. now apply claim_full. }
  assert (Fo : forall c (o : option rule), WH c -> match o with Some r => claim r | None => True end ->
    match o with Some r => full c d r | None => True end).
  { intros c [x|] Hc H; auto. now apply claim_full. }
  assert (Fs : forall c (o : option (rule * sepk)), WH c -> match o with Some (r, _) => claim r | None => True end ->
    sepH (full c d) o).
  { intros c [[x k]|] Hc H; cbn; auto. now apply claim_full. }
  assert (Fe : forall o, match o with Some r => claim r | None => True end -> errH inp prods o).
  { intros [x|] H; cbn; auto. now apply claim_R. }
  destruct r; cbn [inside] in Hr; destruct Hr as [[HM HC] HS]; cbn [loop_moves] in HM.
  - (* RTok *) clear IH. apply claim_of; try discriminate. intros c Hc. apply full_token; auto.
    intros p Hp. exists (TR (fst (tk_try t inp p)) (snd (tk_try t inp p))). split; [discriminate|]. exists 0. intros. reflexivity.
  - (* RTokOf *) pose proof (IH r HS) as H. clear IH. apply claim_of; try discriminate. intros c Hc. apply full_token; auto.
    exact (claim_R r H).
  - (* RSeq *) pose proof (Hl rs HS) as H. clear IH. apply claim_of; try discriminate. intros c Hc. apply full_seq; auto.
  - (* RBr *) destruct HS as [H1 H2]. pose proof (IH r H1) as Hb. pose proof (Hl rs H2) as H. clear IH.
    apply claim_of; try discriminate. intros c Hc. apply full_br; auto. now apply claim_full.
  - (* RElse *) clear IH. apply claim_of; try discriminate. intros c Hc. apply full_else.
  - (* RChc *) pose proof (Hl rs HS) as H. clear IH. intros c Hc. cbn [strip_ws].
    assert (both c (RChc rs)); [|now split]. split; [apply full_chc; auto|].
    cbn [chc_or]. apply full_chc. apply Forall_app. split; auto. constructor; auto. apply full_break.
  - (* RIf *) pose proof (IH r HS) as H. clear IH. apply claim_of; try discriminate. intros c Hc.
    apply full_if; auto. now apply claim_full.
  - (* ROpt *) pose proof (IH r HS) as H. clear IH. apply claim_of; try discriminate. intros c Hc.
    apply full_opt; auto. now apply claim_full.
  - (* ROptT *) destruct HS as [H1 H2]. pose proof (IH _ H1) as Ht. pose proof (IH _ H2) as H. clear IH.
    apply claim_of; try discriminate. intros c Hc. apply full_optt; auto; now apply claim_full.
  - (* RErr *) pose proof (Ho _ HS) as H. clear IH. apply claim_of; try discriminate. intros c Hc.
    apply full_err; auto.
  - (* RMust *) destruct HS as [H1 H2]. pose proof (IH _ H1) as Hb. pose proof (Ho _ H2) as H. clear IH.
    apply claim_of; try discriminate. intros c Hc. apply full_must; auto. now apply claim_full.
  - (* RBreak *) clear IH. apply claim_of; try discriminate. intros c Hc. apply full_break.
  - (* RLoop *) pose proof (IH r HS) as H. clear IH. apply claim_of; try discriminate. intros c Hc.
    apply full_loop; auto; [now apply claim_full|now apply goes_of].
  - (* RWhile *) pose proof (IH r HS) as H. clear IH. apply claim_of; try discriminate. intros c Hc.
    apply full_while; auto; [now apply claim_full|now apply goesf_of].
  - (* RLst *) destruct HS as [H1 H2]. pose proof (IH _ H1) as Hi. pose proof (Hs _ H2) as H. clear IH.
    apply claim_of; try discriminate. intros c Hc. apply full_lst; auto; [now apply claim_full|now apply rounds_of].
  - (* RLstT *) destruct HS as (H1 & H2 & H3). pose proof (IH _ H1) as Ht. pose proof (IH _ H2) as Hi. pose proof (Hs _ H3) as H. clear IH.
    apply claim_of; try discriminate. intros c Hc.
    apply full_lstt; auto; [now apply claim_full|now apply claim_full|now apply tround_of].
  - (* RNSep *) pose proof (IH r HS) as H. clear IH. apply claim_of; try discriminate. intros c Hc.
    apply full_nsep; auto. now apply claim_full.
  - (* RFind *) clear IH. apply claim_of; try discriminate. intros c Hc. apply full_find.
  - (* RReco *) pose proof (Hl _ HS) as H. clear IH. apply claim_of; try discriminate. intros c Hc.
    apply full_reco. apply full_alts. auto.
  - (* RRecW *) pose proof (Ho _ HS) as H. clear IH. apply claim_of; try discriminate. intros c Hc.
    apply full_recw; auto. exact (Fo _ _ Hc H).
  - (* RTryT *) destruct HS as (H1 & H2 & H3). pose proof (Ho _ H1) as Ht. pose proof (IH _ H2) as Hi. pose proof (Ho _ H3) as H. clear IH.
    apply claim_of; try discriminate. intros c Hc. apply full_tryt; auto; [exact (Fo _ _ Hc Ht)|now apply claim_full|exact (Fo _ _ Hc H)].
  - (* RTry *) destruct HS as (H2 & H3). pose proof (IH _ H2) as Hi. pose proof (Ho _ H3) as H. clear IH.
    apply claim_of; try discriminate. intros c Hc. apply full_try; auto; [now apply claim_full|exact (Fo _ _ Hc H)].
  - (* RProd *) clear IH. apply claim_of; try discriminate. intros c Hc. now apply Hcall.
  - (* RRec *) clear IH. apply claim_of; try discriminate. intros c Hc. apply full_rec.
    intros d' Hd. now apply Hrec.
  - (* RRecB *) clear IH. apply claim_of; try discriminate. intros c Hc. destruct (Hrec _ HC) as (H1 & H2 & H3).
    apply full_recb; auto.
  - (* RWs *) pose proof (IH r HS) as H. clear IH. intros c Hc.
    assert (Hw : full c d (RWs r)).
    { apply full_ws. destruct (H sub_cx WH_sub) as [_ [H1 H2]]. now apply (ws_halts d). }
    split; [apply both_of; auto; discriminate|]. cbn [strip_ws]. apply (H c Hc).
  - (* RNoWs *) pose proof (IH r HS) as H. clear IH. apply claim_of; try discriminate. intros c Hc.
    apply full_nows; auto. now apply claim_full.
  - (* RPeek *) pose proof (IH r HS) as H. clear IH. apply claim_of; try discriminate. intros c Hc.
    apply full_peek. now apply claim_M.
  - (* RPeekN *) pose proof (IH r HS) as H. clear IH. apply claim_of; try discriminate. intros c Hc.
    apply full_peekn. now apply claim_M.
  - (* RLook *) clear IH. apply claim_of; try discriminate. intros c Hc. apply full_look.
  - (* RRep *) destruct HS as (H1 & H2 & H3). pose proof (IH _ H1) as Ht. pose proof (IH _ H2) as Hi. pose proof (Hs _ H3) as H. clear IH.
    apply claim_of; try discriminate. intros c Hc. apply full_rep; auto; now apply claim_full.
  - (* RComb *) destruct HS as (H1 & H2). pose proof (Ho _ H1) as He. pose proof (Hl _ H2) as H. clear IH.
    apply claim_of; try discriminate. intros c Hc. apply full_comb; auto; [exact (Fo _ _ Hc He)|now apply goesit_of].
  - (* RCombIt *) clear IH. apply claim_of; try discriminate. intros c Hc. apply full_combit.
  - (* RFlags *) pose proof (IH r HS) as H. clear IH. apply claim_of; try discriminate. intros c Hc.
    apply full_flags; auto; [now apply claim_full|now apply goesf_of].
  - (* RFlag *) pose proof (IH r HS) as H. clear IH. apply claim_of; try discriminate. intros c Hc.
    apply full_flag; auto. now apply claim_full.
  - (* RCtxNew *) clear IH. apply claim_of; try discriminate. intros c Hc. apply full_new.
  - clear IH. apply claim_of; try discriminate. intros c Hc. apply full_add.
  - (* RCtxPush *) pose proof (IH r HS) as H. clear IH. apply claim_of; try discriminate. intros c Hc.
    apply full_push; auto. now apply claim_full.
  - clear IH. apply claim_of; try discriminate. intros c Hc. apply full_set.
  - clear IH. apply claim_of; try discriminate. intros c Hc. apply full_toggle.
  - clear IH. apply claim_of; try discriminate. intros c Hc. apply full_is.
  - clear IH. apply claim_of; try discriminate. intros c Hc. apply full_val.
  - clear IH. apply claim_of; try discriminate. intros c Hc. apply full_eq.
  - (* RCtxCap *) pose proof (IH r HS) as H. clear IH. apply claim_of; try discriminate. intros c Hc.
    apply full_ctxcap; auto. now apply claim_M.
  - (* RCtxRem *) pose proof (IH r HS) as H. clear IH. apply claim_of; try discriminate. intros c Hc.
    apply full_ctxrem; auto. now apply claim_M.
  - clear IH. apply claim_of; try discriminate. intros c Hc. apply full_ret.
  - clear IH. apply claim_of; try discriminate. intros c Hc. apply full_pos.
  - (* RPosR *) pose proof (IH r HS) as H. clear IH. apply claim_of; try discriminate. intros c Hc.
    apply full_posr; auto. now apply claim_full.
  - (* RCap *) pose proof (IH r HS) as H. clear IH. apply claim_of; try discriminate. intros c Hc.
    apply full_cap; auto. now apply claim_M.
  - (* RCapR *) pose proof (IH r HS) as H. clear IH. apply claim_of; try discriminate. intros c Hc.
    apply full_capr; auto. now apply claim_full.
  - clear IH. apply claim_of; try discriminate. intros c Hc. apply full_eof.
  - (* RPas *) pose proof (IH r HS) as H. clear IH. apply claim_of; try discriminate. intros c Hc.
    apply full_pas; auto. now apply claim_full.
  - (* RSym *) pose proof (IH r HS) as H. clear IH. apply claim_of; try discriminate. intros c Hc.
    apply full_sym; auto. now apply claim_M.
  - (* RSub *) clear IH. apply claim_of; try discriminate. intros c Hc. now apply Hcall.
Qed.

End Level.

Lemma inside_2 (P Q R : rule -> Prop) : (forall r, P r -> Q r -> R r) -> forall r, inside P r -> inside Q r -> inside R r.
Proof.
  intros H. fix IH 1. intros r.
  assert (Hl : forall rs, (fix all (rs : list rule) : Prop :=
    match rs with [] => True | r :: rs => inside P r /\ all rs end) rs -> (fix all (rs : list rule) : Prop :=
    match rs with [] => True | r :: rs => inside Q r /\ all rs end) rs -> (fix all (rs : list rule) : Prop :=
    match rs with [] => True | r :: rs => inside R r /\ all rs end) rs).
  { fix IHl 1. intros [|x rs]; [intros; exact I|]. intros [H1 H2] [H3 H4]. split; [exact (IH x H1 H3)|exact (IHl rs H2 H4)]. }
  assert (Ho : forall o, match o with Some r => inside P r | None => True end ->
    match o with Some r => inside Q r | None => True end -> match o with Some r => inside R r | None => True end).
  { intros [x|]; [exact (IH x)|intros; exact I]. }
  assert (Hs : forall o : option (rule * sepk), match o with Some (r, _) => inside P r | None => True end ->
    match o with Some (r, _) => inside Q r | None => True end -> match o with Some (r, _) => inside R r | None => True end).
  { intros [[x k]|]; [exact (IH x)|intros; exact I]. }
  destruct r; cbn [inside]; intros [H1 H2] [H3 H4]; (split; [exact (H _ H1 H3)|]);
    try exact I;
    try (exact (IH _ H2 H4)); try (exact (Hl _ H2 H4)); try (exact (Ho _ H2 H4)).
  all: repeat match goal with H : _ /\ _ |- _ => destruct H end; repeat split;
    try (apply IH; assumption); try (apply Hl; assumption); try (apply Ho; assumption); try (apply Hs; assumption).
Qed.

Section Main.
Variable rank hrank : nat -> nat.
Variable simple : nat -> bool.
Hypothesis HF : fine inp prods rank hrank simple.
Notation fine_rule := (fine_rule inp prods rank simple).

Definition nobody (q : nat) : Prop := False.

Lemma lok_simple p r : fine_rule p r -> no_recursion simple r ->
  inside (lok (fun q => simple q = true /\ rank q < rank p) nobody) r.
Proof.
  apply inside_2. intros x (H1 & _ & H2) H3. split; auto. destruct x; auto; try exact (conj H3 H2); destruct H3.
Qed.

Lemma lok_mono (S S' R R' : nat -> Prop) r : (forall q, S q -> S' q) -> (forall q, R q -> R' q) ->
  inside (lok S R) r -> inside (lok S' R') r.
Proof.
  intros H1 H2 H. apply (inside_2 (lok S R) (lok S R) (lok S' R')); auto.
  intros x [Ha Hb] _. split; auto. destruct x; auto.
Qed.

Lemma ws_ok (S : nat -> Prop) d : (forall q, S q -> forall c, WH c -> full c d (RProd q) /\ full c d (RSub q)) ->
  forall p m, (forall q, simple q = true /\ rank q < rank p -> S q) -> WH (Cx (p_ws (prods p)) m).
Proof.
  intros Hc p m HS. destruct (p_ws (prods p)) as [w|] eqn:Hw; [|exact I].
  destruct (HF p) as (_ & H & _). destruct (H w Hw) as (H1 & H2 & H3).
  assert (HL : claim d w).
  { apply (level d S nobody); auto; [intros q []|]. eapply lok_mono; [exact HS| |apply lok_simple; eauto]; auto. }
  destruct (HL sub_cx WH_sub) as [_ [H4 H5]]. now apply (ws_halts d).
Qed.

Lemma child_ws c p : WH c -> WH (Cx (p_ws (prods p)) 0) -> WH (child_cx prods c p).
Proof.
  unfold child_cx, HaltBase.WH. intros H1 H2. destruct (p_token (prods p)); [exact H2|].
  destruct (p_ws (prods p)); auto.
Qed.

Lemma simple_ok : forall n p, simple p = true -> rank p < n -> forall d c, WH c ->
  full c d (RProd p) /\ full c d (RSub p).
Proof.
  induction n as [|n IH]; intros p Hp Hr; [lia|]. intros d.
  set (S := fun q => simple q = true /\ rank q < rank p).
  assert (Hcall : forall q, S q -> forall c, WH c -> full c d (RProd q) /\ full c d (RSub q)).
  { intros q [H1 H2]. apply IH; auto. lia. }
  destruct (HF p) as (H1 & _ & _ & H2). specialize (H2 Hp).
  assert (HL : claim d (p_rule (prods p))).
  { apply (level d S nobody); auto; [intros q []|]. now apply lok_simple. }
  assert (HW : forall m, WH (Cx (p_ws (prods p)) m)) by (intros m; apply (ws_ok S d); auto).
  intros c Hc. split.
  - apply full_prod; auto; [now apply child_ws|]. apply claim_full; auto. now apply child_ws.
  - apply full_sub; auto. apply claim_full; auto.
Qed.

Lemma simple_call d q : simple q = true -> forall c, WH c -> full c d (RProd q) /\ full c d (RSub q).
Proof. intros H. apply (simple_ok (Datatypes.S (rank q))); auto. Qed.

Lemma ws_all p m : WH (Cx (p_ws (prods p)) m).
Proof. apply (ws_ok (fun q => simple q = true) 0); [intros q; apply simple_call|intros q [H _]; exact H]. Qed.

Lemma simple_claim p r : fine_rule p r -> no_recursion simple r -> claim 0 r.
Proof.
  intros H1 H2. apply (level 0 (fun q => simple q = true) nobody); [apply simple_call|intros q []|].
  eapply lok_mono; [| |apply lok_simple; eauto]; [intros q [H _]; exact H|auto].
Qed.

(** ** Trying a branch *)
Lemma TH_plain r : (forall E vs p, try_step inp prods E r vs p = BCrash) ->
  (forall E b, cancel_step inp prods E r b = Some []) -> TH r /\ CH r.
Proof.
  intros H1 H2. split.
  - intros vs p _. exists BCrash. split; [discriminate|]. apply ev_shift. exists 0. intros. apply H1.
  - intros b. exists []. apply ev_shift. exists 0. intros. apply H2.
Qed.
Lemma TH_same r r' : (forall E vs p, try_step inp prods E r vs p = e_try E r' vs p) ->
  (forall E b, cancel_step inp prods E r b = e_cancel E r' b) -> TH r' /\ CH r' -> TH r /\ CH r.
Proof.
  intros H1 H2 [HT HC]. split.
  - intros vs p Hp. destruct (HT vs p Hp) as (x & Hx & N & HN). exists x. split; auto. apply ev_shift.
    exists N. intros n Hn. cbn [step e_try]. rewrite H1. auto.
  - intros b. destruct (HC b) as (es & N & HN). exists es. apply ev_shift. exists N. intros n Hn.
    cbn [step e_cancel]. rewrite H2. auto.
Qed.
Lemma TH_full c d r : full c d r -> TH r /\ CH r.
Proof. intros (H1 & H2 & _). auto. Qed.
Lemma TH_prod q : TH (p_rule (prods q)) /\ CH (p_rule (prods q)) -> TH (RProd q) /\ CH (RProd q).
Proof.
  intros [HT HC]. split.
  - intros vs p Hp. destruct (HT vs p Hp) as (x & Hx & N & He).
    exists (match x with BR ok b => BR ok (BAt p b) | x => x end). split; [destruct x; congruence|].
    apply ev_shift. exists N. intros n Hn. cbn [step e_try try_step]. rewrite He by exact Hn. now destruct x.
  - intros b. destruct (HC (b_in b)) as (es & N & HN). eexists. apply ev_shift. exists N. intros n Hn.
    cbn [step e_cancel cancel_step]. rewrite HN by exact Hn. reflexivity.
Qed.

Lemma tries n : (forall q, hrank q < n -> TH (RProd q) /\ CH (RProd q)) ->
  forall r p, fine_rule p r -> (forall q, In q (heads r) -> hrank q < n) -> TH r /\ CH r.
Proof.
  intros HP. fix IH 1. intros r p.
  assert (Hl : forall rs, (fix all (rs : list rule) : Prop :=
    match rs with [] => True | r :: rs => fine_rule p r /\ all rs end) rs ->
    (forall q, In q (flat_map heads rs) -> hrank q < n) -> Forall (fun r => TH r /\ CH r) rs).
  { fix IHl 1. intros [|x rs] H Hq; [constructor|]. destruct H as [H1 H2]. constructor.
    - apply (IH x p H1). intros q Hi. apply Hq. cbn. apply in_or_app. now left.
    - apply (IHl rs H2). intros q Hi. apply Hq. cbn. apply in_or_app. now right. }
  intros Hf Hh.
  destruct r; destruct Hf as [(HM & HT & HC) HS]; cbn [simple_tokens] in HT; cbn [heads] in Hh.
  - (* RTok *) clear IH. apply (TH_full sub_cx 0). apply full_token; [exact WH_sub|reflexivity|].
    intros x Hx. exists (TR (fst (tk_try t inp x)) (snd (tk_try t inp x))). split; [discriminate|]. exists 0. intros. reflexivity.
  - (* RTokOf *) clear IH. apply (TH_full sub_cx 0). apply full_token; [exact WH_sub|reflexivity|].
    apply (claim_R 0 r). now apply (simple_claim p).
  - clear IH. apply TH_plain; reflexivity.
  - (* RBr *) destruct HS as [H1 _]. apply (TH_same (RBr r rs) r); try reflexivity. exact (IH r p H1 Hh).
  - clear IH. apply (TH_full sub_cx 0). apply full_else.
  - (* RChc *) specialize (Hl rs HS Hh). clear IH. split.
    + intros vs x Hx. destruct (t_chc_ev inp prods rs (Forall_impl _ (fun r H => proj1 H) Hl) 0 vs x Hx) as (y & Hy & He).
      exists y. split; auto. apply ev_shift. exact He.
    + intros b. destruct (c_chc_ev inp prods rs (Forall_impl _ (fun r H => proj2 H) Hl) (b_alts b)) as (es & He).
      exists es. apply ev_shift. exact He.
  - clear IH. apply TH_plain; reflexivity.
  - clear IH. apply TH_plain; reflexivity.
  - clear IH. apply TH_plain; reflexivity.
  - (* RErr *) clear IH. split.
    + intros vs x _. exists (BR true BNone). split; [discriminate|]. apply ev_shift. exists 0. reflexivity.
    + intros b. exists []. apply ev_shift. exists 0. reflexivity.
  - (* RMust *) destruct HS as [H1 _]. apply (TH_same (RMust r t r0) r); try reflexivity. exact (IH r p H1 Hh).
  - clear IH. apply (TH_full sub_cx 0). apply full_break.
  - clear IH. apply TH_plain; reflexivity.
  - clear IH. apply TH_plain; reflexivity.
  - (* RLst *) destruct HS as [H1 _]. apply (TH_same (RLst r sep) r); try reflexivity. exact (IH r p H1 Hh).
  - clear IH. apply TH_plain; reflexivity.
  - clear IH. apply TH_plain; reflexivity.
  - clear IH. apply TH_plain; reflexivity.
  - clear IH. apply TH_plain; reflexivity.
  - clear IH. apply TH_plain; reflexivity.
  - clear IH. apply TH_plain; reflexivity.
  - (* RTry *) destruct HS as [H1 _]. apply (TH_same (RTry r rec) r); try reflexivity. exact (IH r p H1 Hh).
  - (* RProd *) clear IH. apply HP. apply Hh. now left.
  - clear IH. apply TH_plain; reflexivity.
  - (* RRecB *) clear IH. apply (TH_same (RRecB p0 t) (RProd p0)); try reflexivity. apply HP. apply Hh. now left.
  - clear IH. apply TH_plain; reflexivity.
  - (* RNoWs *) apply (TH_same (RNoWs r) r); try reflexivity. exact (IH r p HS Hh).
  - (* RPeek *) clear IH. apply (TH_full sub_cx 0). apply full_peek. apply (claim_M 0). now apply (simple_claim p).
  - (* RPeekN *) clear IH. apply (TH_full sub_cx 0). apply full_peekn. apply (claim_M 0). now apply (simple_claim p).
  - clear IH. apply (TH_full sub_cx 0). apply full_look.
  - (* RRep *) destruct HS as [H1 _]. apply (TH_same (RRep m r1 r2 sep) r1); try reflexivity. exact (IH r1 p H1 Hh).
  - clear IH. apply TH_plain; reflexivity.
  - clear IH. apply TH_plain; reflexivity.
  - clear IH. apply TH_plain; reflexivity.
  - clear IH. apply TH_plain; reflexivity.
  - clear IH. apply TH_plain; reflexivity.
  - clear IH. apply TH_plain; reflexivity.
  - (* RCtxPush *) apply (TH_same (RCtxPush id sign r) r); try reflexivity. exact (IH r p HS Hh).
  - clear IH. apply TH_plain; reflexivity.
  - clear IH. apply TH_plain; reflexivity.
  - clear IH. apply (TH_full sub_cx 0). apply full_is.
  - clear IH. apply TH_plain; reflexivity.
  - clear IH. apply (TH_full sub_cx 0). apply full_eq.
  - clear IH. apply (TH_full sub_cx 0). apply full_ctxcap; [exact WH_sub|]. apply (claim_M 0). now apply (simple_claim p).
  - clear IH. apply (TH_full sub_cx 0). apply full_ctxrem; [exact WH_sub|]. apply (claim_M 0). now apply (simple_claim p).
  - clear IH. apply TH_plain; reflexivity.
  - clear IH. apply TH_plain; reflexivity.
  - (* RPosR *) apply (TH_same (RPosR r) r); try reflexivity. exact (IH r p HS Hh).
  - clear IH. apply (TH_full sub_cx 0). apply full_cap; [exact WH_sub|]. apply (claim_M 0). now apply (simple_claim p).
  - (* RCapR *) apply (TH_same (RCapR r) r); try reflexivity. exact (IH r p HS Hh).
  - clear IH. apply (TH_full sub_cx 0). apply full_eof.
  - (* RPas *) apply (TH_same (RPas r) r); try reflexivity. exact (IH r p HS Hh).
  - clear IH. apply (TH_full sub_cx 0). apply full_sym; [exact WH_sub|]. apply (claim_M 0). now apply (simple_claim p).
  - clear IH. apply TH_plain; reflexivity.
Qed.

Lemma heads_ok : forall n q, hrank q < n -> TH (RProd q) /\ CH (RProd q).
Proof.
  induction n as [|n IH]; intros q Hq; [lia|]. apply TH_prod.
  destruct (HF q) as (H1 & _ & H2 & _).
  apply (tries n IH _ q H1). intros x Hx. specialize (H2 x Hx). lia.
Qed.

(** ** Everything *)
Lemma all_ok : forall d n p, rank p < n -> forall c, WH c -> full c d (RProd p) /\ full c d (RSub p).
Proof.
  induction d as [d IHd] using lt_wf_ind. induction n as [|n IH]; intros p Hr; [lia|].
  set (S := fun q => rank q < rank p).
  assert (Hcall : forall q, S q -> forall c, WH c -> full c d (RProd q) /\ full c d (RSub q)).
  { intros q H1. apply IH. unfold S in H1. lia. }
  destruct (HF p) as (H1 & _).
  assert (HL : claim d (p_rule (prods p))).
  { apply (level d S (fun _ => True)); auto.
    - intros q _. split.
      + intros c Hc d' Hd. apply (IHd d' Hd (Datatypes.S (rank q))); auto.
      + apply (heads_ok (Datatypes.S (hrank q))). lia.
    - apply (inside_2 _ _ (lok S (fun _ => True))) with (2 := H1) (3 := H1).
      intros x (Ha & _ & Hb) _. split; [exact Ha|destruct x; auto]. }
  intros c Hc. split.
  - assert (HW : WH (child_cx prods c p)) by (apply child_ws; [exact Hc|apply ws_all]).
    apply full_prod; auto. apply claim_full; auto.
  - pose proof (ws_all p (cx_max c)) as HW. apply full_sub; auto. apply claim_full; auto.
Qed.

Theorem parsing_ends p : ends inp prods p.
Proof.
  set (c := Cx (p_ws (prods p)) (p_max (prods p))).
  set (s := St 0 0 true [] []).
  assert (Hr : full c (p_max (prods p)) (p_rule (prods p))).
  { set (d := p_max (prods p)).
    destruct (HF p) as (H1 & _).
    assert (HL : claim d (p_rule (prods p))).
    { apply (level d (fun _ => True) (fun _ => True)).
      - intros q _ c0 Hc. apply (all_ok d (Datatypes.S (rank q))); auto.
      - intros q _. split.
        + intros c0 Hc d' Hd. apply (all_ok d' (Datatypes.S (rank q))); auto.
        + apply (heads_ok (Datatypes.S (hrank q))). lia.
      - apply (inside_2 _ _ (lok (fun _ => True) (fun _ => True))) with (2 := H1) (3 := H1).
        intros x (Ha & _ & Hb) _. split; [exact Ha|destruct x; auto]. }
    apply claim_full; auto. apply ws_all. }
  destruct (R_do_action inp prods (p_max (prods p)) c p s (ws_all p _) Hr) as (x & Hx & N & HN).
  { split; [unfold RuleDen.ok; cbn; lia|cbn; lia]. }
  exists N, x. split.
  - intros ->. exact Hx.
  - intros m Hm. unfold action. now apply HN.
Qed.

End Main.
End Halt.
