(** What a rule leaves behind in the control block: the recursion depth, the whitespace flag and
    the number of context variables.  One induction over the engine, for the rules where those are
    restored. *)
From Verif Require Import Prelude RuleModel RuleSpec RuleDen RuleGood RuleMono RuleSem RuleLaws RuleLists RuleSeq RuleVars.
Close Scope N_scope.

Definition is_ws (k : tkind) : bool := match k with KWhitespace => true | _ => false end.
Definition ws_event (e : event) : bool := match e with EToken k _ _ => is_ws k | _ => false end.
(** The whitespace tokens among the events. *)
Definition nws (l : list event) : nat := length (filter ws_event l).

Section Inv.
Variable inp : list N.
Variable prods : nat -> production.
(** What is looked at: depth, whitespace. *)
Variables tD tW : bool.
(** The productions that may be used while whitespace skipping is off. *)
Variable qp : nat -> bool.

Definition calm_kind (f : bool) (k : tkind) : bool := f || negb (is_ws k).
Definition noesc (r : rule) : bool := tame false false (fun _ => false) r.

(** The rules for which [same] below is kept; [v]: also the number of variables when the rule
    goes on; [f]: automatic whitespace skipping is on. *)
Fixpoint calm (v f : bool) (r : rule) : bool :=
  let copt (v : bool) (o : option rule) := match o with Some r => calm v f r | None => true end in
  let csep (o : option (rule * sepk)) := match o with Some (r, _) => calm false f r | None => true end in
  match r with
  | RTok _ | RTokOf _ _ => calm_kind f (tkind_of r)
  | RSeq rs | RChc rs | RReco _ rs => forallb (calm v f) rs
  | RBr c rs => calm v f c && forallb (calm v f) rs
  | RIf b | ROpt b | RMust b _ _ | RNSep b _ | RFlag b _ _
  | RCtxPush _ _ b | RPosR b | RCapR b => calm v f b
  | RLoop b | RWhile b | RFlags b _ _ | RPas b => calm false f b
  | ROptT t r => calm v f t && calm v f r
  | RLst i sep => calm false f i && csep sep
  | RLstT t i sep _ => negb tD && negb tW && calm v f t && calm false f t && calm false f i && csep sep
  | RRecW r => copt v r
  | RTryT t r rec => negb tD && negb tW && copt v t && calm v f r && copt v rec
  | RTry r rec => negb tD && negb tW && calm v f r && copt v rec
  | RProd p | RRec p _ | RRecB p _ | RSub p => f || qp p
  | RWs _ => f
  | RNoWs r => if tW then f && calm v false r && calm v f r && noesc r else calm v f r
  | RRep _ c i sep => calm false f c && calm false f i && csep sep
  | RComb _ els rs => copt false els && forallb (calm false f) rs
  | RCtxNew _ _ => negb v
  | RCtxCap _ t | RCtxRem _ t _ | RCap t | RSym t _ _ => calm_kind f (tkind_of t)
  | _ => true
  end.

Hypothesis Hg : forall p, calm false true (p_rule (prods p)) = true.
Hypothesis Hq : forall p, qp p = true -> calm false false (p_rule (prods p)) = true.

Definition fl (s : st) : bool := negb tW || wsf s.

Definition sameF (v : bool) (s s' : st) : Prop := v = true -> length (vars s') = length (vars s).
Definition same (v : bool) (s s' : st) : Prop :=
  (tD = true -> depth s' = depth s) /\
  (tW = true -> wsf s' = wsf s /\ (wsf s = false -> nws (trace s') = nws (trace s))) /\
  sameF v s s'.

Lemma same_refl {v} s : same v s s.
Proof. repeat split; auto. Qed.
Lemma same_trans {v} s s1 s2 : same v s s1 -> same v s1 s2 -> same v s s2.
Proof.
  intros (H1 & H2 & H3) (H4 & H5 & H6). repeat split.
  - intros H. rewrite H4, H1; auto.
  - destruct H2, H5; auto. congruence.
  - intros Hf. destruct H2 as [E1 E2], H5 as [E3 E4]; auto. rewrite E4, E2; congruence.
  - intros H. rewrite H6, H3; auto.
Qed.
Lemma same_F {v} s s' : same v s s' -> sameF v s s'.
Proof. unfold same. tauto. Qed.
Lemma sameF_l {v} s s1 s' : same v s s1 -> sameF v s1 s' -> sameF v s s'.
Proof. intros (_ & _ & H) H' Hv. rewrite H', H; auto. Qed.
Lemma same_fl {v} s s' : same v s s' -> fl s' = fl s.
Proof.
  unfold fl. intros (_ & H & _). destruct tW; auto. cbn. destruct H; auto.
Qed.
Lemma same_le {v} s s' : same true s s' -> same v s s'.
Proof. intros (H1 & H2 & H3). repeat split; auto; try (apply H2; auto). intros _. now apply H3. Qed.
Lemma sameF_le {v} s s' : sameF true s s' -> sameF v s s'.
Proof. intros H _. now apply H. Qed.

Definition same_emit_ok (e : event) (s : st) : Prop := fl s = true \/ ws_event e = false.
Lemma same_emit {v} e s : same_emit_ok e s -> same v s (emit e s).
Proof.
  intros H. repeat split; auto. intros Hf. unfold nws. cbn. destruct H as [H|H]; [|now rewrite H].
  unfold fl in H. rewrite H0, Hf in H. discriminate.
Qed.
Lemma same_setpos {v} p s : same v s (setpos p s).
Proof. repeat split; auto. Qed.
Lemma same_vset {v} id x s : same v s (setvars (vset id x (vars s)) s).
Proof.
  repeat split; auto. intros _. cbn. induction (vars s) as [|[] l IH]; cbn; auto.
  destruct (n =? id); cbn; auto.
Qed.
Lemma nws_app l l' : nws (l ++ l') = nws l + nws l'.
Proof. unfold nws. now rewrite filter_app, app_length. Qed.
Lemma nws_rev l : nws (rev l) = nws l.
Proof. induction l; auto. cbn [rev]. rewrite nws_app, IHl. unfold nws. cbn. destruct (ws_event a); cbn; lia. Qed.
Lemma debug_nws es : debug es -> nws es = 0.
Proof.
  induction 1; auto. change (EPStart q p :: es ++ EPCancel q p :: es') with
    ([EPStart q p] ++ es ++ [EPCancel q p] ++ es'). rewrite !nws_app, IHdebug1, IHdebug2. reflexivity.
Qed.
Lemma same_emits {v} es s : debug es -> same v s (emits es s).
Proof.
  intros H. repeat split; auto. intros _. change (nws (rev es ++ trace s) = nws (trace s)).
  now rewrite nws_app, nws_rev, debug_nws.
Qed.
Lemma same_emits_on {v} es s : fl s = true -> same v s (emits es s).
Proof.
  intros H. repeat split; auto. intros Hf. unfold fl in H. rewrite H0, Hf in H. discriminate.
Qed.

(** Results *)
Definition prop := out -> st -> nat -> Prop.
Definition provA (A : prop) (r : res) : Prop := match r with Res o s m => A o s m | _ => True end.
Definition pkA v (A : prop) (s : st) (k : cont) : Prop := forall s' a, same v s s' -> provA A (k_fn k s' a).

Record adm (v : bool) (A : prop) (okB okR : bool) (okI : nat -> bool) (s : st) : Prop := {
  adm_false : forall s', sameF v s s' -> A OFalse s' 0;
  adm_break : okB = true -> forall s', same v s s' -> A OBreak s' 0;
  adm_ret : okR = true -> forall vs s', same v s s' -> A (OTrue vs) s' 0;
  adm_item : forall i, okI i = true -> forall vs s', same v s s' -> A (OItem i vs) s' 0;
  adm_vars : v = false -> forall o s' m x, A o s' m -> A o (setvars x s') m
}.
Arguments adm_false {v} A okB okR okI s _.
Arguments adm_break {v} A okB okR okI s _.
Arguments adm_ret {v} A okB okR okI s _.
Arguments adm_item {v} A okB okR okI s _.
Arguments adm_vars {v} A okB okR okI s _.


Lemma adm_same {v} A b r i s s1 : same v s s1 -> adm v A b r i s -> adm v A b r i s1.
Proof.
  intros Hs []. split; eauto using same_trans, sameF_l.
Qed.
Lemma pk_same {v} A s s1 k : same v s s1 -> pkA v A s k -> pkA v A s1 k.
Proof. intros Hs H s' a H'. apply H. eapply same_trans; eauto. Qed.

Lemma adm_sub {v} A b r i b' r' i' s : adm v A b r i s -> (b' = true -> b = true) -> (r' = true -> r = true) ->
  (forall j, i' j = true -> i j = true) -> adm v A b' r' i' s.
Proof. intros [] H1 H2 H3. split; auto. Qed.

(** The result of a part that is parsed on its own. *)
Definition own (v : bool) (s : st) : prop := fun o s' m =>
  m = 0 /\ match o with OFalse => sameF v s s' | _ => same v s s' end.

Lemma adm_own {v} b r i s : adm v (own v s) b r i s.
Proof.
  split; unfold own; auto. intros Hv o s' m x [-> H]. split; auto.
  assert (Hf : sameF v s (setvars x s')) by (intros H'; congruence).
  destruct o; auto; destruct H as (H1 & H2 & H3); repeat split; auto; apply H2; auto.
Qed.
Lemma pk_final {v} s : pkA v (own v s) s final.
Proof. intros s' a H. cbn. split; auto. Qed.
Lemma tame_all r : tame true true (fun _ => true) r = true.
Proof.
  revert r. fix IH 1. intros r.
  assert (Hl : forall rs, forallb (tame true true (fun _ => true)) rs = true).
  { fix IHl 1. intros [|x rs]; [reflexivity|]. cbn. rewrite IH. cbn. apply IHl. }
  destruct r; cbn; auto.
  - rewrite IH. cbn. apply Hl.
  - now rewrite !IH.
  - destruct r; auto.
  - destruct term, rec; now rewrite ?IH.
  - destruct rec; now rewrite ?IH.
Qed.

Record pe (E : engine) : Prop := {
  pe_parse : forall v A b ret i c r k s a, adm v A b ret i s -> tame b ret i r = true ->
    calm v (fl s) r = true -> pkA v A s k -> provA A (e_parse E c r k s a);
  pe_finish : forall v A b ret i c r bs k s a, adm v A b ret i s -> tame b ret i r = true ->
    calm v (fl s) r = true -> pkA v A s k -> provA A (e_finish E c r bs k s a);
  pe_reco : forall v A b ret i c lim al p k s a, adm v A b ret i s -> tame b ret i al = true ->
    calm v (fl s) al = true -> pkA v A s k -> provA A (e_reco E c lim al p k s a);
  pe_lst : forall c item sep s acc, calm false (fl s) (RLst item sep) = true ->
    provA (own true s) (e_lst E c item sep s acc);
  pe_lstt : forall c t item sep lim ls sp s acc, calm false (fl s) (RLstT t item sep lim) = true ->
    provA (own true s) (e_lstt E c t item sep lim ls sp s acc);
  pe_comb : forall c dup al n cnt h s acc, calm false (fl s) al = true ->
    provA (own true s) (e_comb E c dup al n cnt h s acc);
  pe_flags : forall c r t z s, calm false (fl s) r = true -> provA (own true s) (e_flags E c r t z s);
  pe_cancel : forall r b es, e_cancel E r b = Some es -> debug es;
  pe_vars : ve E
}.

Lemma pe_0 : pe eng0.
Proof. split; intros; try exact I; [discriminate|apply ve_0]. Qed.

Lemma own_true s r : provA (own false s) r -> vb s r -> provA (own true s) r.
Proof.
  intros H Hv. destruct r as [o s' m| |]; auto. destruct H as [-> H]. split; auto.
  destruct o; [intros _; exact Hv| | |]; destruct H as (H1 & H2 & _);
    (split; [exact H1|split; [exact H2|intros _; exact Hv]]).
Qed.

Section Step.
Variable E : engine.
Hypothesis HE : pe E.

Lemma parse_own c r s a : calm false (fl s) r = true -> provA (own true s) (e_parse E c r final s a).
Proof.
  intros H. apply own_true; [|apply (ve_parse E (pe_vars E HE)), vk_final].
  eapply (pe_parse E HE); eauto using adm_own, tame_all, pk_final.
Qed.
Lemma finish_own c r bs s : calm false (fl s) r = true -> provA (own true s) (e_finish E c r bs final s []).
Proof.
  intros H. apply own_true; [|apply (ve_finish E (pe_vars E HE)), vk_final].
  eapply (pe_finish E HE); eauto using adm_own, tame_all, pk_final.
Qed.

Section Res.
Context {v : bool}.
Variable A : prop.
Variables okB okR : bool.
Variable okI : nat -> bool.
Notation tame := (tame okB okR okI).
Notation adm := (adm v A okB okR okI).
Notation pk := (pkA v A).
Notation prov := (provA A).

Lemma v_delim s r ok : adm s -> provA (own true s) r -> (forall s' x, same true s s' -> prov (ok s' x)) -> prov (delim r ok).
Proof.
  intros Ha Hr H. destruct r as [[] s' m| |]; cbn in *; auto; try exact I.
  - apply (adm_false _ _ _ _ _ Ha). apply sameF_le, Hr.
  - apply H, Hr.
Qed.
Lemma v_orelse s r ok no : provA (own true s) r -> (forall s' x, same true s s' -> prov (ok s' x)) ->
  (forall s', sameF true s s' -> prov (no s')) -> prov (orelse r ok no).
Proof. intros Hr H H1. destruct r as [[]| |]; cbn in *; auto; try exact I; [apply H1|apply H]; apply Hr. Qed.
Lemma v_cancel r b s ok : (forall s', same true s s' -> prov (ok s')) -> prov (cancel_then E r b s ok).
Proof.
  intros H. unfold cancel_then. destruct (e_cancel E r b) eqn:Hc; cbn; auto.
  apply H, same_emits. eapply (pe_cancel E HE); eauto.
Qed.
Lemma v_branch_or c r k s a other : adm s -> tame r = true -> calm v (fl s) r = true -> pk s k ->
  (forall s', same v s s' -> prov (other s')) -> prov (branch_or E c r k s a other).
Proof.
  intros Ha Hr Hc Hk Ho. unfold branch_or. destruct (e_try E r (vars s) (pos s)) as [[|] b| |]; try exact I.
  - eapply (pe_finish E HE); eauto.
  - apply v_cancel. intros. now apply Ho, same_le.
Qed.
Lemma v_skip_ws w s ok : adm s -> fl s = true -> (forall s', same v s s' -> prov (ok s')) -> prov (skip_ws E w s ok).
Proof.
  intros Ha Hf H. unfold skip_ws. destruct (token_rule (strip_ws w)).
  - destruct (e_wsloop E (strip_ws w) (pos s)); try exact I. apply H.
    eapply same_trans; [|apply same_setpos]. apply same_emit. now left.
  - destruct (e_parse E sub_cx _ final _ []) as [[]| |]; cbn; try exact I.
    + apply (adm_false _ _ _ _ _ Ha). intros Hv. reflexivity.
    + apply H. eapply same_trans; [|apply same_setpos].
      eapply same_trans; [apply same_emits_on, Hf|]. apply same_emit. left. exact Hf.
Qed.
Lemma v_ws_then c k s a : adm s -> pk s k -> prov (ws_then E c k s a).
Proof.
  intros Ha H. unfold ws_then. destruct (cx_ws c); [|apply H, same_refl].
  destruct (k_nows k || negb (wsf s)) eqn:Hn; [apply H, same_refl|].
  apply v_skip_ws; auto. unfold fl. destruct (wsf s); [apply orb_true_r|]. rewrite orb_true_r in Hn. discriminate.
Qed.
Lemma same_token s k b e : calm_kind (fl s) k = true -> same v s (setpos e (emit (EToken k b e) s)).
Proof.
  intros H. eapply same_trans; [|apply same_setpos]. apply same_emit. unfold same_emit_ok, calm_kind in *.
  destruct (fl s); auto. right. cbn in *. now destruct (is_ws k).
Qed.
Lemma v_tok_finish c kd e k s a : adm s -> calm_kind (fl s) kd = true -> pk s k -> prov (tok_finish E c kd e k s a).
Proof.
  intros Ha Hc Hk. unfold tok_finish. pose proof (same_token s kd (pos s) e Hc) as Hs.
  apply v_ws_then; eauto using adm_same, pk_same.
Qed.
Lemma v_token_parse r s ok : adm s -> calm_kind (fl s) (tkind_of r) = true ->
  (forall e s', same v s s' -> prov (ok e s')) -> prov (token_parse inp E r s ok).
Proof.
  intros Ha Hc H. unfold token_parse. destruct (tmatch inp E r (pos s)) as [[|]| |]; try exact I.
  - apply H. now apply same_token.
  - cbn. apply (adm_false _ _ _ _ _ Ha). intros Hv. reflexivity.
Qed.
Lemma pk_seq c rs k : forall s, adm s -> forallb tame rs = true -> forallb (calm v (fl s)) rs = true -> pk s k ->
  pk s (seq_cont E c rs k).
Proof.
  induction rs as [|r rs IH]; intros s Ha Hr Hc Hk; cbn [seq_cont]; auto.
  cbn in Hr, Hc. apply andb_true_iff in Hr, Hc. destruct Hr as [Hr1 Hr2], Hc as [Hc1 Hc2].
  intros s' a Hs. cbn [k_fn].
  eapply (pe_parse E HE); eauto using adm_same.
  - now rewrite (same_fl _ _ Hs).
  - eapply pk_same; eauto.
Qed.
Lemma v_chc c u k a rs : forall s, adm s -> forallb tame rs = true -> forallb (calm v (fl s)) rs = true -> pk s k ->
  prov (p_chc E c u rs k s a).
Proof.
  induction rs as [|r rs IH]; intros s Ha Hr Hc Hk; cbn [p_chc].
  - destruct u; try exact I. apply (adm_false _ _ _ _ _ Ha). intros Hv. reflexivity.
  - cbn in Hr, Hc. apply andb_true_iff in Hr, Hc. destruct Hr as [Hr1 Hr2], Hc as [Hc1 Hc2].
    apply v_branch_or; auto. intros s' Hs. apply IH; eauto using adm_same, pk_same.
    now rewrite (same_fl _ _ Hs).
Qed.
Lemma v_f_chc c k a rs : forall i bs s, adm s -> forallb tame rs = true -> forallb (calm v (fl s)) rs = true -> pk s k ->
  prov (f_chc E c rs i bs k s a).
Proof.
  induction rs as [|r rs IH]; intros i bs s Ha Hr Hc Hk; cbn [f_chc]; [exact I|].
  cbn in Hr, Hc. apply andb_true_iff in Hr, Hc. destruct Hr as [Hr1 Hr2], Hc as [Hc1 Hc2]. destruct i.
  - eapply (pe_finish E HE); eauto.
  - apply v_cancel. intros s' Hs0. assert (Hs : same v s s') by now apply same_le. apply IH; eauto using adm_same, pk_same. now rewrite (same_fl _ _ Hs).
Qed.
Lemma v_err t r s : adm s -> prov (p_err E t r s).
Proof.
  intros Ha. unfold p_err. destruct r; [destruct (run_token E r (pos s))|]; try exact I;
    apply (adm_false _ _ _ _ _ Ha); intros Hv; reflexivity.
Qed.
Lemma v_prod_finish c p k a s vs : adm s -> pk s k -> prov (prod_finish prods E c p k a s vs).
Proof.
  intros Ha H. unfold prod_finish. destruct (p_token (prods p)); [now apply v_ws_then|apply H, same_refl].
Qed.
Lemma v_prod_after c p k a r s : adm s -> pk s k -> provA (own true s) r -> prov (prod_after prods E c p k a r).
Proof.
  intros Ha H Hr. destruct r as [[] s' m| |]; cbn in *; try exact I.
  - apply (adm_false _ _ _ _ _ Ha). intros Hv. now apply Hr.
  - assert (Hs : same v s (emit (EPFinish p (pos s')) s')).
    { eapply same_trans; [apply same_le, Hr|]. apply same_emit. now right. }
    apply v_prod_finish; eauto using adm_same, pk_same.
Qed.
Lemma v_rep_run c m item sep k a s vs : adm s -> pk s k ->
  calm false (fl s) item = true -> match sep with Some (r, _) => calm false (fl s) r | None => true end = true ->
  prov (rep_run E c m item sep k a s vs).
Proof.
  intros Ha H Hi Hsp. unfold rep_run. destruct (count_of vs) as [n|]; try exact I.
  eapply v_delim; [exact Ha| |intros; now apply H, same_le].
  assert (Hb : forall r0 ok s0, same true s s0 -> calm false (fl s) r0 = true ->
    (forall s' x, same true s s' -> provA (own true s) (ok s' x)) -> provA (own true s) (delim (e_parse E c r0 final s0 []) ok)).
  { intros r0 ok s0 H0 Hc Hok.
    assert (Hp : provA (own true s0) (e_parse E c r0 final s0 [])) by (apply parse_own; now rewrite (same_fl _ _ H0)).
    destruct (e_parse E c r0 final s0 []) as [[] s' mm| |]; cbn in *; try exact I.
    - destruct Hp. split; auto. eapply sameF_l; eauto.
    - apply Hok. eapply same_trans; [exact H0|apply Hp]. }
  assert (Hmore : forall n s0 acc, same true s s0 -> provA (own true s) (rep_more E c item sep n s0 acc)).
  { clear n. induction n as [|n IH]; intros s0 acc H0; cbn [rep_more].
    - destruct sep as [[sr sk]|]; [|split; auto]. apply Hb; auto; [|intros; split; auto].
      destruct sk; cbn; auto.
    - destruct sep as [[sr sk]|]; [apply Hb; auto; intros|]; apply Hb; auto. }
  destruct n; cbn [rep_loop]; [split; auto using same_refl|]. apply Hb; auto using same_refl.
Qed.

End Res.

Ltac splitb := repeat match goal with H : _ && _ = true |- _ => apply andb_true_iff in H; destruct H end.

Lemma v_try_cont {v} A b ret i c term k s : adm v A b ret i s ->
  match term with Some t => tame b ret i t | None => true end = true ->
  match term with Some t => calm v (fl s) t | None => true end = true -> pkA v A s k ->
  pkA v (fun o s' m => match m with S m => A o s' m | 0 => o = OFalse -> sameF v s s' end) s (try_cont E c term k).
Proof.
  intros Ha Ht Hc Hk s' a Hs. cbn [try_cont k_fn].
  assert (Hp : provA A (match term with Some t => e_parse E c t k s' a | None => k_fn k s' a end)).
  { destruct term; [|now apply Hk]. eapply (pe_parse E HE); eauto using adm_same, pk_same.
    now rewrite (same_fl _ _ Hs). }
  destruct term; [destruct (e_parse E c r k s' a)|destruct (k_fn k s' a)]; exact Hp.
Qed.
Lemma v_try_after {v} A b ret i c rec k a s r : tD = false -> tW = false -> adm v A b ret i s ->
  match rec with Some t => tame b ret i t | None => true end = true ->
  match rec with Some t => calm v (fl s) t | None => true end = true -> pkA v A s k ->
  provA (fun o s' m => match m with S m => A o s' m | 0 => o = OFalse -> sameF v s s' end) r ->
  provA A (try_after E c rec k a r).
Proof.
  intros HD HW Ha Ht Hc Hk Hr. destruct r as [o s' [|m]| |]; try exact I; [|now destruct o].
  destruct o; try exact I. cbn [try_after]. unfold try_recover. specialize (Hr eq_refl).
  assert (Hs : same v s s') by (repeat split; try congruence; auto).
  destruct rec as [[]|]; eapply (pe_parse E HE); eauto using adm_same, pk_same;
    rewrite (same_fl _ _ Hs); exact Hc.
Qed.
Lemma adm_try {v} A b ret i s :  adm v A b ret i s ->
  adm v (fun o s' m => match m with S m => A o s' m | 0 => o = OFalse -> sameF v s s' end) b ret i s.
Proof.
  intros [H1 H2 H3 H4 H5]. split; auto; try discriminate.
  intros Hv o s' [|m] x; auto. intros _ _ Hv'. congruence.
Qed.

Lemma v_p_try {v} A b ret i c term r rec k s a : tD = false -> tW = false -> adm v A b ret i s ->
  match term with Some t => tame b ret i t | None => true end = true ->
  match term with Some t => calm v (fl s) t | None => true end = true ->
  tame b ret i r = true -> calm v (fl s) r = true ->
  match rec with Some t => tame b ret i t | None => true end = true ->
  match rec with Some t => calm v (fl s) t | None => true end = true -> pkA v A s k ->
  provA A (p_try E c term r rec k s a).
Proof.
  intros. unfold p_try. eapply v_try_after; eauto. eapply (pe_parse E HE).
  - apply adm_try; eauto.
  - eauto.
  - auto.
  - eapply v_try_cont; eauto.
Qed.

Lemma v_recw {v} A b ret i c r k s a : adm v A b ret i s ->
  match r with Some t => tame b ret i t | None => true end = true ->
  match r with Some t => calm v (fl s) t | None => true end = true -> pkA v A s k ->
  provA A (p_recw E c r k s a).
Proof.
  intros Ha Ht Hc Hk. unfold p_recw.
  set (B := fun o s' m => match m with S m => A o s' m | 0 => A o (emit (ERCancel (pos s')) s') 0 end : Prop).
  assert (He : forall s' e, ws_event e = false -> same v s' (emit e s')) by (intros; apply same_emit; now right).
  assert (Hb : adm v B b ret i (emit (ERStart (pos s)) s)).
  { destruct Ha as [H1 H2 H3 H4 H5]. split; unfold B.
    - intros s' H'. apply H1. exact H'.
    - intros Hx s' H'. apply H2; [assumption|]. eapply same_trans; [apply (He s (ERStart (pos s))); reflexivity|]. eapply same_trans; [exact H'|]. apply He. reflexivity.
    - intros Hx vs s' H'. apply H3; [assumption|]. eapply same_trans; [apply (He s (ERStart (pos s))); reflexivity|]. eapply same_trans; [exact H'|]. apply He. reflexivity.
    - intros j Hx vs s' H'. apply H4; [assumption|]. eapply same_trans; [apply (He s (ERStart (pos s))); reflexivity|]. eapply same_trans; [exact H'|]. apply He. reflexivity.
    - intros Hv o s' [|m] x Hm; [|auto].
      change (emit (ERCancel (pos (setvars x s'))) (setvars x s')) with (setvars x (emit (ERCancel (pos s')) s')). auto. }
  set (wsk := Cont false (fun s a => ws_then E c
            (Cont false (fun s a => mark (k_fn k (emit (ERFinish (pos s)) s) a))) s a)).
  assert (Hw : pkA v B (emit (ERStart (pos s)) s) wsk).
  { intros s1 a1 H1. cbn [k_fn wsk]. eapply v_ws_then; [eapply adm_same; eauto|].
    intros s2 a2 H2. cbn [k_fn].
    assert (Hp : provA A (k_fn k (emit (ERFinish (pos s2)) s2) a2)).
    { apply Hk. eapply same_trans; [apply (He s (ERStart (pos s)))|eapply same_trans; [exact H1|eapply same_trans; [exact H2|apply He]]]; reflexivity. }
    destruct (k_fn k (emit (ERFinish (pos s2)) s2) a2); exact Hp. }
  assert (Hx : provA B (match r with
            | Some r => e_parse E c r wsk (emit (ERStart (pos s)) s) a
            | None => k_fn wsk (emit (ERStart (pos s)) s) a end)).
  { destruct r; [eapply (pe_parse E HE); eauto|apply Hw, same_refl]. }
  destruct r; match goal with |- provA A (match match ?x with _ => _ end with _ => _ end) => idtac | _ => idtac end.
  - destruct (e_parse E c r wsk (emit (ERStart (pos s)) s) a) as [? ? []| |] eqn:Hq'; cbn in *; auto;
      unfold wsk in Hq'; rewrite Hq'; exact Hx.
  - destruct (k_fn wsk (emit (ERStart (pos s)) s) a) as [? ? []| |] eqn:Hq'; cbn in *; auto;
      unfold wsk in Hq'; cbn in Hq'; rewrite Hq'; exact Hx.
Qed.

Lemma same_emit_r {v} s s1 e : ws_event e = false -> same v s s1 -> same v s (emit e s1).
Proof. intros He H. eapply same_trans; [exact H|]. apply same_emit. now right. Qed.
Lemma same_setpos_r {v} s s1 p : same v s s1 -> same v s (setpos p s1).
Proof. intros H. eapply same_trans; [exact H|]. apply same_setpos. Qed.
Lemma same_vset_r {v} s s1 id x : same v s s1 -> same v s (setvars (vset id x (vars s1)) s1).
Proof. intros H. eapply same_trans; [exact H|]. apply same_vset. Qed.
Lemma same_emits_r {v} s s1 es : debug es -> same v s s1 -> same v s (emits es s1).
Proof. intros He H. eapply same_trans; [exact H|]. now apply same_emits. Qed.

Ltac sm := repeat first
  [ assumption | apply same_refl | apply same_emit_r; [reflexivity|] | apply same_setpos_r
  | apply same_vset_r
  | match goal with |- same _ _ (if ?b then _ else _) => destruct b end
  | match goal with H : same ?v ?s1 ?s2 |- same ?v ?s ?s2 => apply (same_trans s s1 s2); [|exact H] end
  | match goal with H : same true ?s1 ?s2 |- same _ ?s ?s2 => apply (same_trans s s1 s2); [|apply same_le; exact H] end ].
Ltac ad := first [eassumption | eapply adm_same; [|eassumption]; sm].
Ltac pks := first [eassumption | eapply pk_same; [|eassumption]; sm].
Ltac cl := rewrite ?andb_true_iff in *; first [assumption
  | match goal with |- context [fl ?s'] =>
      match goal with Hc : calm _ (fl ?s) _ = true |- _ =>
        replace (fl s') with (fl s); [assumption|symmetry; match goal with H : same ?v _ _ |- _ => apply (@same_fl v) end; sm] end end].

Lemma own_trans s s1 r : same true s s1 -> provA (own true s1) r -> provA (own true s) r.
Proof.
  intros H. destruct r as [o s' m| |]; cbn; auto. intros [-> Ho]. split; auto.
  destruct o; eauto using same_trans, sameF_l.
Qed.

Lemma same_F_only s s' : tD = false -> tW = false -> sameF true s s' -> same true s s'.
Proof. intros. repeat split; auto; congruence. Qed.

Ltac own1 s1 := eapply (own_trans _ s1); [sm|].

Lemma v_lst_item c item sep sb s acc : calm false (fl s) (RLst item sep) = true ->
  provA (own true s) (lst_item prods E c item sep sb s acc).
Proof.
  intros Hc. pose proof Hc as Hc'. cbn in Hc. splitb. unfold lst_item.
  assert (Hn : forall r, provA (own true s) r ->
    provA (own true s) (delim r (fun s v => e_lst E c item sep s (push v acc)))).
  { intros r Hr. eapply v_delim; [apply (adm_own true true (fun _ => true))|exact Hr|].
    intros s' v Hs. eapply own_trans; [exact Hs|]. apply (pe_lst E HE). now rewrite (same_fl _ _ Hs). }
  destruct (is_branch prods item).
  - destruct (e_try E item (vars s) (pos s)) as [[|] b| |]; try exact I.
    + apply Hn. now apply finish_own.
    + apply v_cancel; auto. intros s' Hs. split; auto. destruct sep as [[sr []]|]; cbn [report_trailing]; sm.
  - apply Hn. now apply parse_own.
Qed.

Lemma v_lst c item sep s acc : calm false (fl s) (RLst item sep) = true ->
  provA (own true s) (lst_step prods E c item sep s acc).
Proof.
  intros Hc. pose proof Hc as Hc'. cbn in Hc. splitb. unfold lst_step. destruct sep as [[sr sk]|].
  2: now apply v_lst_item.
  destruct (e_try E sr (vars s) (pos s)) as [[|] b| |]; try exact I.
  - eapply v_delim; [apply (adm_own true true (fun _ => true))|now apply finish_own|].
    intros s' v Hs. eapply own_trans; [exact Hs|]. apply v_lst_item. now rewrite (same_fl _ _ Hs).
  - apply v_cancel; auto. intros s' Hs. split; auto.
Qed.

Lemma v_comb c dup al n cnt h s acc : calm false (fl s) al = true ->
  provA (own true s) (comb_step E c dup al n cnt h s acc).
Proof.
  intros Hc. unfold comb_step. destruct (n <=? cnt); [split; auto using same_refl|].
  pose proof (parse_own c al s [] Hc) as Hp.
  destruct (e_parse E c al final s []) as [[] s' m| |]; cbn in *; try exact I; try exact Hp.
  - destruct Hp as [-> Hp]. split; auto.
  - destruct Hp as [-> Hp]. destruct (nth i h false).
    + eapply (own_trans _ (emit (EError dup (pos s) (pos s')) s')); [sm|]. apply (pe_comb E HE).
      change (calm false (fl s') al = true). now rewrite (same_fl _ _ Hp).
    + eapply own_trans; [exact Hp|]. apply (pe_comb E HE). now rewrite (same_fl _ _ Hp).
  - destruct Hp as [-> Hp]. split; auto.
Qed.

Lemma v_flags c r t z s : calm false (fl s) r = true -> provA (own true s) (flags_step E c r t z s).
Proof.
  intros Hc. unfold flags_step. destruct (e_try E r (vars s) (pos s)) as [[|] b| |]; try exact I.
  - eapply v_delim; [apply (adm_own true true (fun _ => true))|now apply finish_own|].
    intros s' v Hs. destruct v as [|[] []]; try exact I.
    set (s2 := if (Z.land z z0 =? z0)%Z then _ else _).
    assert (Hs2 : same true s s2) by (unfold s2; sm).
    eapply own_trans; [exact Hs2|]. apply (pe_flags E HE). now rewrite (same_fl _ _ Hs2).
  - apply v_cancel; auto. intros s' Hs. split; auto.
Qed.

Lemma v_reco {v} A b ret i c lim al p k s a : adm v A b ret i s -> tame b ret i al = true ->
  calm v (fl s) al = true -> pkA v A s k -> provA A (reco_step inp E c lim al p k s a).
Proof.
  intros Ha Ht Hc Hk. unfold reco_step. destruct (e_try E al (vars s) (pos s)) as [[|] bs| |]; try exact I.
  - assert (Hs : same v s (emit (ERFinish (pos s)) (emit (EToken KError p (pos s)) s))) by sm.
    eapply (pe_finish E HE); eauto using adm_same, pk_same.
  - apply v_cancel; auto. intros s' Hs. destruct (fst (tk_try lim inp (pos s')) || eof inp (pos s')).
    + apply (adm_false _ _ _ _ _ Ha). apply same_F. sm.
    + assert (Hs2 : same v s (setpos (S (pos s')) s')) by sm.
      eapply (pe_reco E HE); eauto using adm_same, pk_same. now rewrite (same_fl _ _ Hs2).
Qed.

Lemma v_lstt_limit c t item sep lim b sp s acc : calm false (fl s) (RLstT t item sep lim) = true ->
  provA (own true s) (lstt_limit inp E c t item sep lim b sp s acc).
Proof.
  intros Hc. unfold lstt_limit. destruct (e_try E t (vars s) (pos s)) as [[|] tb| |]; try exact I.
  - split; auto. unfold lstt_recovered. sm.
  - apply v_cancel; auto. intros s' Hs. destruct (fst (tk_try lim inp (pos s')) || eof inp (pos s')).
    + split; auto. apply same_F. sm.
    + eapply (own_trans _ (setpos (S (pos s')) s')); [sm|]. apply (pe_lstt E HE).
      change (fl (setpos (S (pos s')) s')) with (fl s'). now rewrite (same_fl _ _ Hs).
Qed.

Lemma v_lstt c t item sep lim ls sp s acc : calm false (fl s) (RLstT t item sep lim) = true ->
  provA (own true s) (lstt_step inp prods E c t item sep lim ls sp s acc).
Proof.
  intros Hc. pose proof Hc as Hc'. cbn in Hc. splitb.
  assert (HD : tD = false) by now destruct tD. assert (HW : tW = false) by now destruct tW.
  assert (Hgo : forall s' ls sp acc, same true s s' -> provA (own true s) (e_lstt E c t item sep lim ls sp s' acc)).
  { intros s' ls' sp' acc' Hs. eapply own_trans; [exact Hs|]. apply (pe_lstt E HE). now rewrite (same_fl _ _ Hs). }
  assert (HF : forall s', sameF true s s' -> same true s s') by (intros; now apply same_F_only).
  assert (Hc1 : forall r b s' ok, same true s s' -> (forall s', same true s s' -> provA (own true s) (ok s')) ->
     provA (own true s) (cancel_then E r b s' ok)).
  { intros r b s' ok Hs Hok. apply v_cancel; auto. intros ? ?. apply Hok. eapply same_trans; eauto. }
  assert (Ho : forall s1 r ok no, same true s s1 -> provA (own true s1) r -> (forall s' v, same true s s' -> provA (own true s) (ok s' v)) ->
     (forall s', same true s s' -> provA (own true s) (no s')) -> provA (own true s) (orelse r ok no)).
  { intros s1 r ok no H1x Hr Hok Hno. eapply v_orelse; [exact Hr| |].
    - intros. apply Hok. eapply same_trans; eauto.
    - intros. apply Hno. eapply same_trans; [exact H1x|]. now apply same_F_only. }
  assert (Hlim : forall s' b sp, same true s s' -> provA (own true s) (lstt_limit inp E c t item sep lim b sp s' acc)).
  { intros s' b sp' Hs. eapply own_trans; [exact Hs|]. apply v_lstt_limit. now rewrite (same_fl _ _ Hs). }
  assert (Hpar : forall r s', same true s s' -> calm false (fl s) r = true -> provA (own true s') (e_parse E c r final s' [])).
  { intros r s' Hs Hr. apply parse_own. now rewrite (same_fl _ _ Hs). }
  assert (Hfin : forall r b s', same true s s' -> calm false (fl s) r = true -> provA (own true s') (e_finish E c r b final s' [])).
  { intros r b s' Hs Hr. apply finish_own. now rewrite (same_fl _ _ Hs). }
  destruct ls; cbn [lstt_step].
  - destruct (e_try E t (vars s) (pos s)) as [[|] b| |]; try exact I.
    + split; auto using same_refl.
    + apply Hc1; auto using same_refl.
  - destruct sep as [[sr sk]|]; [|apply Hgo, same_refl].
    eapply (Ho s); auto using same_refl. intros s' Hs.
    destruct (pos s =? pos s'); [|auto]. destruct (is_branch prods item); [|auto].
    destruct (e_try E item (vars s') (pos s')) as [[|] b| |]; try exact I; [|now apply Hc1; auto].
    eapply (Ho s'); auto.
  - destruct sep as [[sr sk]|]; [|exact I].
    destruct (e_try E t (vars s) (pos s)) as [[|] b| |]; try exact I; [|apply Hgo, same_refl].
    split; auto. destruct sk; cbn [report_trailing]; sm.
  - eapply (Ho s); auto using same_refl.
  - apply Hgo. sm.
  - assert (Hrec : same true s (lstt_recovered b s)) by (unfold lstt_recovered; sm).
    destruct sep as [[sr sk]|].
    + destruct (e_try E sr (vars s) (pos s)) as [[|] sb| |]; try exact I; [|apply Hc1; auto using same_refl].
      eapply (Ho (lstt_recovered b s)); auto.
    + destruct (is_branch prods item); [|apply Hlim, same_refl].
      destruct (e_try E item (vars s) (pos s)) as [[|] ib| |]; try exact I; [|apply Hc1; auto using same_refl].
      eapply (Ho (lstt_recovered b s)); auto.
Qed.

Lemma prod_calm p s : fl s || qp p = true -> calm false (fl s) (p_rule (prods p)) = true.
Proof. intros H. destruct (fl s); [apply Hg|now apply Hq]. Qed.

Lemma v_p_prod {v} A b ret i c p k s a : adm v A b ret i s -> fl s || qp p = true -> pkA v A s k ->
  provA A (p_prod prods E c p k s a).
Proof.
  intros Ha Hp Hk. unfold p_prod.
  assert (Hs : same true s (emit (EPStart p (pos s)) s)) by sm.
  assert (Hbody : forall s1, same true s s1 -> provA (own true s) (e_parse E (child_cx prods c p) (p_rule (prods p)) final s1 [])).
  { intros s1 H1. eapply own_trans; [exact H1|]. apply parse_own. apply prod_calm. now rewrite (same_fl _ _ H1). }
  destruct (p_ws (prods p)); eapply v_prod_after; eauto.
  eapply (own_trans _ (emit (EPStart p (pos s)) s)); [sm|].
  eapply v_ws_then; [apply (adm_own true true (fun _ => true))|].
  intros s' a' H'. cbn [k_fn]. eapply own_trans; [exact H'|]. apply parse_own, prod_calm.
  rewrite (same_fl _ _ H'). exact Hp.
Qed.

Lemma v_do_action c p s : fl s || qp p = true -> provA (own true s) (do_action prods E c p s).
Proof.
  intros Hp. unfold do_action.
  set (s1 := emit (EPStart p (pos s)) (emit (EGStart (pos s)) s)).
  assert (Hs : same true s s1) by (unfold s1; sm).
  assert (Hw : provA (own true s) (ws_then E c (Cont false (e_parse E c (p_rule (prods p)) final)) s1 [])).
  { eapply own_trans; [exact Hs|]. eapply v_ws_then; [apply (adm_own true true (fun _ => true))|].
    intros s' a' H'. cbn [k_fn]. eapply own_trans; [exact H'|].
    apply parse_own, prod_calm. rewrite (same_fl _ _ H'), (same_fl _ _ Hs). exact Hp. }
  destruct (ws_then E c _ s1 []) as [[] s' m| |]; cbn in *; try exact I; destruct Hw as [-> Hw]; split; auto.
Qed.

Lemma alts_tame b ret i rs : tame b ret i (alts_of rs) = forallb (tame b ret i) rs.
Proof. destruct rs as [|? []]; cbn; auto. now rewrite andb_true_r. Qed.
Lemma alts_calm {v} f rs : calm v f (alts_of rs) = forallb (calm v f) rs.
Proof. destruct rs as [|? []]; cbn; auto. now rewrite andb_true_r. Qed.
Lemma calm_comb {v} f rs : forall n, forallb (calm v f) rs = true -> forallb (calm v f) (comb_alts n rs) = true.
Proof.
  induction rs as [|r rs IH]; intros n H; cbn in *; auto. splitb.
  assert (forallb (calm v f) (comb_alts (S n) rs) = true) by auto.
  assert (Ho : calm v f (RBr r [RCombIt n]) = true) by (cbn; now rewrite H).
  destruct r; try (cbn [forallb]; apply andb_true_iff; split; [exact Ho|assumption]).
  cbn [forallb calm]. rewrite ?andb_true_iff. cbn in H. apply andb_true_iff in H. rewrite forallb_app. cbn. rewrite ?andb_true_iff. tauto.
Qed.
Lemma calm_choice f els rs : match els with Some r => calm false f r | None => true end = true ->
  forallb (calm false f) rs = true -> calm false f (comb_choice els rs) = true.
Proof.
  intros H1 H2. unfold comb_choice. rewrite alts_calm, forallb_app, calm_comb by auto.
  destruct els; cbn; now rewrite ?H1.
Qed.

Lemma pk_capr {v} A b ret i c p n k s : adm v A b ret i s -> pkA v A s k -> pkA v A s (capr_cont E c p n k).
Proof. intros Ha Hk s' a Hs. cbn [capr_cont k_fn]. eapply v_ws_then; [ad|pks]. Qed.
Lemma pk_push {v} A id sign p k s : pkA v A s k -> pkA v A s (push_cont id sign p k).
Proof.
  intros Hk s' a Hs. cbn [push_cont k_fn]. unfold with_var. destruct (vget id (vars s')) as [[]|]; try exact I.
  apply Hk. sm.
Qed.
Lemma same_wsf {v} s s' : tW = true -> wsf s = true -> same v (setwsf false s) s' -> same v s (setwsf true s').
Proof.
  intros HW Hw (H1 & H2 & H3). repeat split; auto. congruence.
Qed.
Lemma adm_wsf {v} A b ret i f s : adm v A b ret i s -> adm v A false false (fun _ => false) (setwsf f s).
Proof. intros []. split; auto; discriminate. Qed.
Lemma adm_depth {v} A b ret i d s : adm v A b ret i s -> adm v A false false (fun _ => false) (setdepth d s).
Proof. intros []. split; auto; discriminate. Qed.
Lemma same_depth {v} s s' : same v (setdepth (S (depth s)) s) s' -> same v s (setdepth (pred (depth s')) s').
Proof.
  intros (H1 & H2 & H3). repeat split; auto; try (apply H2; auto). cbn in *. intros H. rewrite H1; auto.
Qed.

Lemma v_nows {v} A b ret i c r k s (X : cont -> st -> res) : adm v A b ret i s -> tame b ret i r = true ->
  calm v (fl s) (RNoWs r) = true -> pkA v A s k ->
  (forall b' ret' i' k' s', adm v A b' ret' i' s' -> tame b' ret' i' r = true -> calm v (fl s') r = true ->
     pkA v A s' k' -> provA A (X k' s')) ->
  provA A (X (nows_cont E c k) (setwsf false s)).
Proof.
  intros Ha Ht Hc Hk HX. cbn [calm] in Hc. destruct tW eqn:HW.
  - splitb. eapply HX; [eapply adm_wsf; eauto|eassumption| |].
    + unfold fl. rewrite HW. cbn. assumption.
    + assert (Hw : wsf s = true) by (unfold fl in H; rewrite HW in H; exact H).
      intros s' a Hs. cbn [nows_cont k_fn].
      pose proof (same_wsf _ _ HW Hw Hs) as Hs'.
      eapply v_ws_then; [ad|pks].
  - assert (H0 : forall f s1 s', same v s1 s' -> same v s1 (setwsf f s')).
    { intros f s1 s' (H1 & H2 & H3). repeat split; auto; intros; congruence. }
    pose proof (H0 false s s (same_refl s)) as Hs0.
    eapply HX; [ad|eassumption| |].
    + unfold fl in *. rewrite HW in *. exact Hc.
    + intros s' a Hs. cbn [nows_cont k_fn].
      assert (Hs' : same v s (setwsf true s')) by (apply H0; eapply same_trans; eauto).
      eapply v_ws_then; [ad|pks].
Qed.

Lemma v_inc_depth {v} A b ret i c t k s a (X : cont -> st -> list val -> res) : adm v A b ret i s -> pkA v A s k ->
  (forall k' s', adm v A false false (fun _ => false) s' -> fl s' = fl s -> pkA v A s' k' -> provA A (X k' s' a)) ->
  provA A (inc_depth c t s (fun s => X (depth_cont k) s a)).
Proof.
  intros Ha Hk HX. unfold inc_depth. destruct (cx_max c =? 0); [exact I|].
  destruct (cx_max c <=? depth s).
  - apply (adm_false _ _ _ _ _ Ha). apply same_F. sm.
  - apply HX; [eapply adm_depth; eauto|reflexivity|].
    intros s' a' Hs. cbn [depth_cont k_fn]. apply Hk. now apply same_depth.
Qed.

Lemma same_setvars {v} s s' : same v (setvars [] s) s' -> same v s (setvars (vars s) s').
Proof. intros (H1 & H2 & H3). repeat split; auto; apply H2; auto. Qed.

Ltac kk := match goal with Hk : pkA _ ?A ?s ?k |- provA ?A (k_fn ?k _ _) => apply Hk; sm end.
Ltac pcase := try exact I; try kk.
Ltac fail1 := match goal with Ha : adm _ _ _ _ _ _ |- _ => apply (adm_false _ _ _ _ _ Ha); apply same_F; sm end.

Lemma v_p_lstt {v} A b ret i c t item sep lim k s a : adm v A b ret i s -> tame b ret i t = true ->
  calm v (fl s) (RLstT t item sep lim) = true -> pkA v A s k -> provA A (p_lstt E c t item sep lim k s a).
Proof.
  intros Ha Ht Hc Hk. cbn in Hc. splitb.
  assert (HD : tD = false) by now destruct tD. assert (HW : tW = false) by now destruct tW.
  assert (Hc' : calm false (fl s) (RLstT t item sep lim) = true).
  { cbn. rewrite HD, HW. cbn. rewrite ?andb_true_iff. auto. }
  unfold p_lstt.
  assert (Hfin : forall s1 x, same v s s1 -> provA A
    match e_try E t (vars s1) (pos s1) with
    | BR true b => e_finish E c t b k s1 (a ++ x)
    | BR false _ => Crash
    | BNoFuel => NoFuel
    | BCrash => Crash
    end).
  { intros s1 x Hs. destruct (e_try E t (vars s1) (pos s1)) as [[|] bs| |]; try exact I.
    eapply (pe_finish E HE v); [ad|eassumption| |pks]. now rewrite (same_fl _ _ Hs). }
  eapply v_orelse; [now apply parse_own| |].
  - intros s1 x Hs. eapply (v_delim A b ret i s1); [ad| |intros; apply Hfin; sm].
    apply (pe_lstt E HE). now rewrite (same_fl _ _ Hs).
  - intros s1 Hf. assert (Hs : same true s s1) by now apply same_F_only.
    eapply (v_delim A b ret i s1); [ad| |intros; apply Hfin; sm].
    apply (pe_lstt E HE). now rewrite (same_fl _ _ Hs).
Qed.

Lemma v_parse {v} A b ret i c r k s a : adm v A b ret i s -> tame b ret i r = true ->
  calm v (fl s) r = true -> pkA v A s k -> provA A (parse_step inp prods E c r k s a).
Proof.
  intros Ha Ht Hc Hk.
  destruct r; cbn [parse_step].
  - (* RTok *) eapply v_token_parse; [ad|assumption|]. intros. eapply v_ws_then; [ad|pks].
  - eapply v_token_parse; [ad|assumption|]. intros. eapply v_ws_then; [ad|pks].
  - unfold p_seq. eapply pk_seq; eauto using same_refl.
  - unfold p_seq. eapply (pk_seq A b ret i c (r :: rs)); eauto using same_refl.
  - kk.
  - eapply v_chc; eauto.
  - eapply v_branch_or; eauto.
  - eapply v_branch_or; eauto; intros; kk.
  - cbn in Ht, Hc. splitb. destruct (e_try E r1 (vars s) (pos s)) as [[|] bs| |]; pcase.
    + eapply (pe_finish E HE); eauto.
    + apply v_cancel; auto. intros. eapply (pe_parse E HE); [ad|eassumption| |pks]. cl.
  - eapply v_err; eauto.
  - eapply v_branch_or; eauto; intros; eapply v_err; ad.
  - eapply (adm_break _ _ _ _ _ Ha); auto using same_refl.
  - pose proof (parse_own c r s [] Hc) as Hp. destruct (e_parse E c r final s []) as [[] s' m| |]; try exact I;
      destruct Hp as [-> Hp].
    + now apply (adm_false _ _ _ _ _ Ha), sameF_le.
    + eapply (pe_parse E HE); [ad| | |pks]; [exact Ht|]. now rewrite (same_fl _ _ Hp).
    + kk.
  - destruct (e_try E r (vars s) (pos s)) as [[|] bs| |]; pcase.
    + eapply v_delim; [ad|now apply finish_own|]. intros s' x Hp.
      eapply (pe_parse E HE); [ad| | |pks]; [exact Ht|]. now rewrite (same_fl _ _ Hp).
    + apply v_cancel; auto; intros; kk.
  - cbn in Hc. splitb. eapply v_delim; [ad|now apply parse_own|]. intros s' x Hs.
    eapply (v_delim A b ret i s'); [ad| |intros; unfold sink_finish; kk].
    apply (pe_lst E HE). rewrite (same_fl _ _ Hs). cbn. now rewrite H, H0.
  - eapply v_p_lstt; eauto.
  - unfold p_nsep. eapply v_branch_or; eauto; intros s' a' Hs; cbn [k_fn]; kk.
  - unfold p_find. destruct (search_from inp f (pos s)) as [[[] q] e]; [kk|]. fail1.
  - eapply (pe_reco E HE); [ad| | |pks]; [now rewrite alts_tame|]. now rewrite alts_calm.
  - eapply v_recw; eauto.
  - cbn in Ht, Hc. splitb. eapply v_p_try; eauto; [now destruct tD|now destruct tW].
  - cbn in Ht, Hc. splitb. eapply v_p_try; eauto; [now destruct tD|now destruct tW].
  - eapply v_p_prod; eauto.
  - eapply (v_inc_depth A b ret i c t k s a (fun k s a => e_parse E c (RProd p) k s a)); eauto.
    intros k' s' Ha' Hf Hk'. eapply (pe_parse E HE); eauto. cbn in *. now rewrite Hf.
  - eapply (v_inc_depth A b ret i c t k s a (fun k s a => e_parse E c (RProd p) k s a)); eauto.
    intros k' s' Ha' Hf Hk'. eapply (pe_parse E HE); eauto. cbn in *. now rewrite Hf.
  - eapply v_skip_ws; eauto.
  - destruct (cx_ws c).
    + eapply (v_nows A b ret i c r k s (fun k s => e_parse E c r k s a)); eauto.
      intros. eapply (pe_parse E HE); eauto.
    + eapply (pe_parse E HE); eauto. cbn [calm] in Hc. destruct tW; splitb; auto.
  - destruct (tmatch inp E r (pos s)) as [[]| |]; pcase.
  - destruct (tmatch inp E r (pos s)) as [[]| |]; pcase.
  - destruct (search_from inp f (pos s)) as [[[] q] e]; kk.
  - cbn in Hc. splitb. eapply v_delim; [ad|now apply parse_own|]. intros s' x Hs.
    eapply v_rep_run; [ad|pks| |]; now rewrite (same_fl _ _ Hs).
  - cbn in Hc. splitb. eapply v_delim; [ad| |intros; unfold sink_finish; kk].
    apply (pe_comb E HE). now apply calm_choice.
  - eapply (adm_item _ _ _ _ _ Ha); auto using same_refl.
  - eapply v_delim; [ad| |intros; kk]. now apply (pe_flags E HE).
  - destruct (e_try E r (vars s) (pos s)) as [[|] bs| |]; pcase.
    + eapply (pe_finish E HE); eauto.
    + apply v_cancel; auto; intros; kk.
  - cbn in Hc. unfold p_create.
    destruct v; [discriminate|].
    assert (Hs : same false s (setvars ((id, v0) :: vars s) s)) by (repeat split; auto; intros; congruence).
    specialize (Hk _ a Hs). destruct (k_fn k _ a); auto. cbn in *. now apply (adm_vars _ _ _ _ _ Ha eq_refl).
  - unfold with_var. destruct (vget id (vars s)) as [[]|]; pcase.
  - eapply (pe_parse E HE); eauto. now apply pk_push.
  - unfold with_var. destruct (vget id (vars s)) as [[]|]; pcase.
  - unfold with_var. destruct (vget id (vars s)) as [[]|]; pcase.
  - kk.
  - unfold with_var. destruct (vget id (vars s)) as [[]|]; pcase.
  - unfold with_var. destruct (vget id (vars s)); pcase. destruct (all_eq v0 ids (vars s)); pcase.
  - eapply v_token_parse; [ad|assumption|]. intros. eapply v_ws_then; [ad|].
    intros s2 a2 Hs2. cbn [k_fn]. unfold with_var. destruct (vget id (vars s2)); pcase.
  - eapply v_token_parse; [ad|assumption|]. intros. eapply v_ws_then; [ad|].
    intros s2 a2 Hs2. cbn [k_fn]. unfold with_var. destruct (vget id (vars s2)); pcase.
  - eapply (adm_ret _ _ _ _ _ Ha); auto using same_refl.
  - kk.
  - assert (Hs : same v s (emit (EToken KPosition (pos s) (pos s)) s)) by sm.
    eapply (pe_parse E HE); [ad|eassumption|exact Hc|pks].
  - eapply v_token_parse; [ad|assumption|]. intros. eapply v_ws_then; [ad|pks].
  - eapply (pe_parse E HE); eauto. eapply pk_capr; eauto.
  - kk.
  - unfold pas_after. eapply v_delim; [ad|now apply parse_own|]. intros. kk.
  - eapply v_token_parse; [ad|assumption|]. intros. eapply v_ws_then; [ad|].
    intros s2 a2 Hs2. cbn [k_fn]. destruct (f _); [kk|fail1].
  - pose proof (v_do_action (Cx (p_ws (prods p)) (cx_max c)) p (setvars [] s) Hc) as Hp.
    destruct (do_action _ _ _ _ _) as [[] s' m| |]; try exact I; destruct Hp as [-> Hp].
    + apply (adm_false _ _ _ _ _ Ha). intros _. reflexivity.
    + apply same_setvars in Hp. kk.
Qed.

Lemma v_finish {v} A b ret i c r bs k s a : adm v A b ret i s -> tame b ret i r = true ->
  calm v (fl s) r = true -> pkA v A s k -> provA A (finish_step inp prods E c r bs k s a).
Proof.
  intros Ha Ht Hc Hk.
  destruct r; cbn [finish_step]; try exact I.
  - eapply v_tok_finish; eauto.
  - eapply v_tok_finish; eauto.
  - cbn in Ht, Hc. splitb. eapply (pe_finish E HE); eauto. eapply pk_seq; eauto.
  - eapply (pe_parse E HE); eauto.
  - destruct bs; try exact I. eapply v_f_chc; eauto.
  - eapply (pe_parse E HE); eauto.
  - eapply (pe_finish E HE); eauto.
  - eapply (pe_parse E HE); eauto.
  - cbn in Hc. splitb. eapply v_delim; [ad|now apply finish_own|]. intros s' x Hs.
    eapply (v_delim A b ret i s'); [ad| |intros; unfold sink_finish; kk].
    apply (pe_lst E HE). rewrite (same_fl _ _ Hs). cbn. now rewrite H, H0.
  - cbn in Ht, Hc. splitb.
    assert (HD : tD = false) by now destruct tD. assert (HW : tW = false) by now destruct tW.
    eapply v_try_after; eauto. eapply (pe_finish E HE); [apply adm_try; eauto|eassumption|assumption|].
    eapply v_try_cont; eauto.
  - assert (Hs : same true s (emit (EPStart p (b_at inp bs)) s)) by sm.
    eapply v_prod_after; eauto. eapply own_trans; [exact Hs|]. apply finish_own, prod_calm. exact Hc.
  - eapply (v_inc_depth A b ret i c t k s a (fun k s a => e_finish E c (RProd p) bs k s a)); eauto.
    intros k' s' Ha' Hf Hk'. eapply (pe_finish E HE); eauto. cbn in *. now rewrite Hf.
  - eapply (v_nows A b ret i c r k s (fun k s => e_finish E c r bs k s a)); eauto.
    intros. eapply (pe_finish E HE); eauto.
  - kk.
  - kk.
  - kk.
  - cbn in Hc. splitb. eapply v_delim; [ad|now apply finish_own|]. intros s' x Hs.
    eapply v_rep_run; [ad|pks| |]; now rewrite (same_fl _ _ Hs).
  - eapply (pe_finish E HE); eauto. now apply pk_push.
  - kk.
  - kk.
  - eapply v_tok_finish; eauto.
    intros s2 a2 Hs2. cbn [k_fn]. unfold with_var. destruct (vget id (vars s2)); pcase.
  - eapply v_tok_finish; eauto. unfold calm_kind. cbn. apply orb_true_r.
  - assert (Hs : same v s (emit (EToken KPosition (pos s) (pos s)) s)) by sm.
    eapply (pe_finish E HE); [ad|eassumption|exact Hc|pks].
  - eapply v_tok_finish; eauto.
  - eapply (pe_finish E HE); eauto. eapply pk_capr; eauto.
  - kk.
  - unfold pas_after. eapply v_delim; [ad|now apply finish_own|]. intros. kk.
  - destruct (f _); try exact I. eapply v_tok_finish; eauto.
Qed.

End Step.

Lemma pe_eng n : pe (eng inp prods n).
Proof.
  induction n as [|n IH]; [exact pe_0|]. split; intros; cbn [eng step e_parse e_finish e_reco e_lst e_lstt e_comb e_flags].
  - eapply v_parse; eauto.
  - eapply v_finish; eauto.
  - eapply v_reco; eauto.
  - now apply v_lst.
  - now apply v_lstt.
  - now apply v_comb.
  - now apply v_flags.
  - eapply (ge_cancel _ _ _ (eng_good inp prods (S n))); eauto.
  - apply (ve_eng inp prods (S n)).
Qed.

(** ** For the runs of a rule *)
Lemma runs_same c r s o s' : calm false (fl s) r = true -> Runs inp prods c r s o s' ->
  match o with OFalse => sameF true s s' | _ => same true s s' end.
Proof.
  intros Hc H. apply Runs_at in H. destruct H as (n & m & H).
  pose proof (parse_own _ (pe_eng n) c r s [] Hc) as Hp. rewrite H in Hp. apply Hp.
Qed.

Lemma goes_same {v} c r s n l s1 vs : calm v (fl s) r = true -> noesc r = true ->
  is_den false (fun k a => e_parse (eng inp prods n) c r k s a) (DNext l s1 vs) -> same v s s1.
Proof.
  intros Hc Ht Hd.
  set (good := fun s' => (negb tD || (depth s' =? depth s)) &&
    (negb tW || (eqb (wsf s') (wsf s) && (wsf s || (nws (trace s') =? nws (trace s))))) &&
    (negb v || (length (vars s') =? length (vars s)))).
  assert (Hgood : forall s', good s' = true <-> same v s s').
  { assert (Hb : forall x y, negb x || y = true <-> (x = true -> y = true)) by (intros [] []; cbn; intuition).
    intros s'. unfold good, same, sameF. rewrite !andb_true_iff, !Hb, !andb_true_iff, !Nat.eqb_eq, eqb_true_iff.
    rewrite orb_true_iff, Nat.eqb_eq.
    assert (Hw : wsf s = true \/ nws (trace s') = nws (trace s) <->
                 (wsf s = false -> nws (trace s') = nws (trace s))) by (destruct (wsf s); intuition congruence).
    rewrite Hw. tauto. }
  set (k := Cont false (fun s' _ => if good s' then Res OFalse s 0 else Res (OItem 0 []) s 0)).
  set (A := (fun o _ _ => o = OFalse) : prop).
  assert (Hp : provA A (e_parse (eng inp prods n) c r k s [])).
  { eapply (pe_parse _ (pe_eng n) v); [|exact Ht|exact Hc|].
    - split; unfold A; auto; discriminate.
    - intros s' a Hs. cbn. apply Hgood in Hs. rewrite Hs. reflexivity. }
  rewrite (Hd k []) in Hp by reflexivity. cbn [apply k_fn k] in Hp.
  destruct (good s1) eqn:Hs1; [now apply Hgood|]. rewrite posts_Res in Hp. discriminate.
Qed.

End Inv.
