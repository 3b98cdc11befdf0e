(** Inside token productions, and generally where the context has no whitespace rule, nothing is
    skipped: a rule emits no whitespace token. *)
From Verif Require Import Prelude RuleModel RuleSpec RuleDen RuleGood RuleMono RuleSem RuleLaws RuleLists RuleSeq
  RuleVars RuleInv.
Close Scope N_scope.

Section NoWs.
Variable inp : list N.
Variable prods : nat -> production.
(** The productions that may be used: they define no whitespace of their own. *)
Variable qp : nat -> bool.

(** The rule does not mention whitespace itself. *)
Fixpoint bare (r : rule) : bool :=
  let copt (o : option rule) := match o with Some r => bare r | None => true end in
  let csep (o : option (rule * sepk)) := match o with Some (r, _) => bare r | None => true end in
  match r with
  | RTok _ | RTokOf _ _ => negb (is_ws (tkind_of r))
  | RSeq rs | RChc rs | RReco _ rs => forallb bare rs
  | RBr c rs => bare c && forallb bare rs
  | RIf b | ROpt b | RMust b _ _ | RNSep b _ | RFlag b _ _
  | RCtxPush _ _ b | RPosR b | RCapR b | RLoop b | RWhile b | RFlags b _ _ | RPas b | RNoWs b => bare b
  | ROptT t r => bare t && bare r
  | RLst i sep => bare i && csep sep
  | RLstT t i sep _ => bare t && bare i && csep sep
  | RRecW r => copt r
  | RTryT t r rec => copt t && bare r && copt rec
  | RTry r rec => bare r && copt rec
  | RProd p | RRec p _ | RRecB p _ | RSub p => qp p
  | RWs _ => false
  | RRep _ c i sep => bare c && bare i && csep sep
  | RComb _ els rs => copt els && forallb bare rs
  | RCtxCap _ t | RCtxRem _ t _ | RCap t | RSym t _ _ => negb (is_ws (tkind_of t))
  | _ => true
  end.

Hypothesis Hq : forall p, qp p = true -> p_ws (prods p) = None /\ bare (p_rule (prods p)) = true.

Definition nw (s : st) : nat := nws (trace s).
Definition vb (s : st) (r : res) : Prop := match r with Res _ s' _ => nw s' = nw s | _ => True end.
Definition vk (k : cont) : Prop := forall s a, vb s (k_fn k s a).

Record ve (E : engine) : Prop := {
  ve_cancel : forall r b es, e_cancel E r b = Some es -> nws es = 0;
  ve_parse : forall c r k s a, cx_ws c = None -> bare r = true -> vk k -> vb s (e_parse E c r k s a);
  ve_finish : forall c r b k s a, cx_ws c = None -> bare r = true -> vk k -> vb s (e_finish E c r b k s a);
  ve_reco : forall c lim al p k s a, cx_ws c = None -> bare al = true -> vk k -> vb s (e_reco E c lim al p k s a);
  ve_lst : forall c item sep s acc, cx_ws c = None -> bare (RLst item sep) = true -> vb s (e_lst E c item sep s acc);
  ve_lstt : forall c t item sep lim ls sp s acc, cx_ws c = None -> bare (RLstT t item sep lim) = true ->
    vb s (e_lstt E c t item sep lim ls sp s acc);
  ve_comb : forall c dup al n cnt h s acc, cx_ws c = None -> bare al = true -> vb s (e_comb E c dup al n cnt h s acc);
  ve_flags : forall c r t z s, cx_ws c = None -> bare r = true -> vb s (e_flags E c r t z s)
}.

Lemma ve_0 : ve eng0.
Proof. split; intros; try exact I. discriminate. Qed.

Lemma nws_app l l' : nws (l ++ l') = nws l + nws l'.
Proof. unfold nws. now rewrite filter_app, app_length. Qed.
Lemma nws_rev l : nws (rev l) = nws l.
Proof.
  induction l as [|e l IH]; [reflexivity|]. cbn [rev]. rewrite nws_app, IH. unfold nws. cbn.
  destruct (ws_event e); cbn; lia.
Qed.
Lemma debug_nws es : debug es -> nws es = 0.
Proof.
  induction 1 as [|b e es H IH|q p es es' H1 IH1 H2 IH2]; auto.
  change (nws ((EPStart q p :: es) ++ EPCancel q p :: es') = 0). rewrite nws_app.
  change (nws (EPStart q p :: es)) with (nws es). change (nws (EPCancel q p :: es')) with (nws es'). lia.
Qed.

Lemma vb_eq s s1 r : nw s1 = nw s -> vb s1 r -> vb s r.
Proof. intros H. destruct r; cbn; auto. congruence. Qed.
Lemma vk_final : vk final.
Proof. intros s a. reflexivity. Qed.

Lemma bare_alts i rs : forallb bare rs = true -> forallb bare (comb_alts i rs) = true.
Proof.
  revert i. induction rs as [|r rs IH]; intros i H; [reflexivity|]. cbn [forallb] in H.
  apply andb_true_iff in H. destruct H as [H1 H2].
  destruct r; cbn [comb_alts forallb bare] in *; rewrite (IH (S i) H2), ?andb_true_r; auto.
  rewrite forallb_app. cbn [forallb bare]. rewrite ?andb_true_r. auto.
Qed.
Lemma bare_alts_of rs : forallb bare rs = true -> bare (alts_of rs) = true.
Proof.
  intros H. unfold alts_of. destruct rs as [|r [|? ?]]; auto. cbn in H. now rewrite andb_true_r in H.
Qed.
Lemma bare_comb els rs : match els with Some e => bare e | None => true end = true -> forallb bare rs = true ->
  bare (comb_choice els rs) = true.
Proof.
  intros He Hr. apply bare_alts_of. rewrite forallb_app, (bare_alts 0 rs Hr). destruct els; cbn; auto.
  now rewrite He.
Qed.

Section Step.
Variable E : engine.
Hypothesis HE : ve E.

Lemma vb_delim s r ok : vb s r -> (forall s' v, nw s' = nw s -> vb s (ok s' v)) -> vb s (delim r ok).
Proof. intros Hr H. destruct r as [[]| |]; cbn in *; auto. Qed.
Lemma vb_orelse s r ok no : vb s r -> (forall s' v, nw s' = nw s -> vb s (ok s' v)) ->
  (forall s', nw s' = nw s -> vb s (no s')) -> vb s (orelse r ok no).
Proof. intros Hr H H1. destruct r as [[]| |]; cbn in *; auto. Qed.
Lemma vb_cancel s r b s0 ok : nw s0 = nw s -> (forall s', nw s' = nw s -> vb s (ok s')) -> vb s (cancel_then E r b s0 ok).
Proof.
  intros H0 H. unfold cancel_then. destruct (e_cancel E r b) as [es|] eqn:He; cbn; auto. apply H.
  unfold nw. cbn [emits trace]. rewrite nws_app, nws_rev, (ve_cancel E HE _ _ _ He). exact H0.
Qed.
Lemma vb_ws_then s c k s0 a : cx_ws c = None -> nw s0 = nw s -> vk k -> vb s (ws_then E c k s0 a).
Proof. intros Hc H0 H. unfold ws_then. rewrite Hc. apply (vb_eq s s0); auto. Qed.
Lemma nw_tok k b e s : is_ws k = false -> nw (emit (EToken k b e) s) = nw s.
Proof. intros H. unfold nw, nws. cbn. now rewrite H. Qed.
Lemma vb_token_parse r s ok : negb (is_ws (tkind_of r)) = true -> (forall e s', nw s' = nw s -> vb s (ok e s')) ->
  vb s (token_parse inp E r s ok).
Proof.
  intros Hr H. apply negb_true_iff in Hr. unfold token_parse.
  destruct (tmatch inp E r (pos s)) as [[|]| |]; cbn [vb]; auto.
  - apply H. apply (nw_tok _ _ _ s Hr).
  - unfold terror. destruct r; try reflexivity. now destruct (tk_err t inp (pos s)) as [[? ?] ?].
Qed.
Lemma vb_branch_or c r k s a other : cx_ws c = None -> bare r = true -> vk k ->
  (forall s', nw s' = nw s -> vb s (other s')) -> vb s (branch_or E c r k s a other).
Proof.
  intros Hc Hr Hk Ho. unfold branch_or. destruct (e_try E r (vars s) (pos s)) as [[|] b| |]; try exact I.
  - now apply (ve_finish E HE).
  - now apply vb_cancel.
Qed.
Lemma vk_seq c rs k : cx_ws c = None -> forallb bare rs = true -> vk k -> vk (seq_cont E c rs k).
Proof.
  intros Hc Hr Hk. induction rs as [|r rs IH]; cbn [seq_cont]; auto. cbn [forallb] in Hr.
  apply andb_true_iff in Hr. destruct Hr. intros s a. cbn [k_fn]. apply (ve_parse E HE); auto.
Qed.
Lemma vb_chc c u k a rs : cx_ws c = None -> forallb bare rs = true -> vk k -> forall s, vb s (p_chc E c u rs k s a).
Proof.
  intros Hc Hr Hk. induction rs as [|r rs IH]; intros s; cbn [p_chc].
  - destruct u; cbn; auto.
  - cbn [forallb] in Hr. apply andb_true_iff in Hr. destruct Hr as [H1 H2].
    apply vb_branch_or; auto. intros s' Hs. apply (vb_eq s s'); [assumption|now apply IH].
Qed.
Lemma vb_f_chc c k a rs : cx_ws c = None -> forallb bare rs = true -> vk k -> forall i bs s, vb s (f_chc E c rs i bs k s a).
Proof.
  intros Hc Hr Hk. induction rs as [|r rs IH]; intros i bs s; cbn [f_chc]; [exact I|]. cbn [forallb] in Hr.
  apply andb_true_iff in Hr. destruct Hr as [H1 H2]. destruct i.
  - now apply (ve_finish E HE).
  - apply vb_cancel; auto. intros s' Hs. apply (vb_eq s s'); [assumption|now apply IH].
Qed.
Lemma vb_err t r s : vb s (p_err E t r s).
Proof. unfold p_err. destruct r; cbn; auto. destruct (run_token E r (pos s)); cbn; auto. Qed.
Lemma vb_mark s r : vb s r -> vb s (mark r).
Proof. destruct r; cbn; auto. Qed.
Lemma vk_try_cont c term k : cx_ws c = None -> match term with Some t => bare t | None => true end = true ->
  vk k -> vk (try_cont E c term k).
Proof.
  intros Hc Ht Hk s a. cbn [try_cont k_fn]. apply vb_mark. destruct term; [now apply (ve_parse E HE)|apply Hk].
Qed.
Lemma vb_try_after c rec k a s r : cx_ws c = None -> match rec with Some t => bare t | None => true end = true ->
  vk k -> vb s r -> vb s (try_after E c rec k a r).
Proof.
  intros Hc Hb Hk Hr. destruct r as [o s' [|m]| |]; try exact Hr; try exact I; [|now destruct o].
  destruct o; try exact I. cbn [try_after]. unfold try_recover.
  destruct rec as [[]|]; apply (vb_eq s s'); try exact Hr; now apply (ve_parse E HE).
Qed.
Lemma vb_prod_after c p k a s r : cx_ws c = None -> vk k -> vb s r -> vb s (prod_after prods E c p k a r).
Proof.
  intros Hc Hk Hr. destruct r as [[] s'| |]; cbn in *; auto. unfold prod_finish.
  destruct (p_token (prods p)); [now apply vb_ws_then|]. eapply vb_eq; [|apply Hk]. exact Hr.
Qed.
Lemma vk_capr c b n k : cx_ws c = None -> vk k -> vk (capr_cont E c b n k).
Proof. intros Hc H s a. now apply vb_ws_then. Qed.
Lemma vk_nows c k : cx_ws c = None -> vk k -> vk (nows_cont E c k).
Proof. intros Hc H s a. now apply vb_ws_then. Qed.
Lemma vk_depth k : vk k -> vk (depth_cont k).
Proof. intros H s a. eapply vb_eq; [|apply H]. reflexivity. Qed.
Lemma vk_push id sign b k : vk k -> vk (push_cont id sign b k).
Proof.
  intros H s a. cbn [push_cont k_fn]. unfold with_var. destruct (vget id (vars s)) as [[]|]; cbn; auto.
  eapply vb_eq; [|apply H]. reflexivity.
Qed.
Lemma vb_rep_run c m item sep k a s vs : cx_ws c = None -> bare item = true ->
  match sep with Some (r, _) => bare r | None => true end = true -> vk k -> vb s (rep_run E c m item sep k a s vs).
Proof.
  intros Hc Hi Hse H. unfold rep_run. destruct (count_of vs) as [n|]; cbn; auto. apply vb_delim.
  - assert (Hm : forall n s0 acc, nw s0 = nw s -> vb s (rep_more E c item sep n s0 acc)).
    { assert (Hb : forall r s0 ok, bare r = true -> nw s0 = nw s ->
        (forall s' v, nw s' = nw s -> vb s (ok s' v)) -> vb s (delim (e_parse E c r final s0 []) ok)).
      { intros. apply vb_delim; auto. eapply vb_eq; [eassumption|]. apply (ve_parse E HE); auto using vk_final. }
      clear n. induction n as [|n IH]; intros s0 acc H0; cbn [rep_more].
      - destruct sep as [[sr sk]|]; [|exact H0]. apply Hb; auto. unfold trailing_rule; destruct sk; auto.
      - destruct sep as [[sr sk]|]; [apply Hb; auto; intros|]; apply Hb; auto. }
    destruct n; cbn [rep_loop]; [reflexivity|]. apply vb_delim; auto. apply (ve_parse E HE); auto using vk_final.
  - intros s' v Hs. apply (vb_eq s s'); auto; apply H.
Qed.

Ltac vp := apply (ve_parse E HE); auto using vk_final.
Ltac vf := apply (ve_finish E HE); auto using vk_final.
Ltac bg := solve [auto | cbn [bare]; rewrite ?andb_true_iff; auto].
Ltac bb := repeat match goal with
  | H : bare (_ _) = true |- _ => progress cbn [bare] in H
  | H : (_ && _) = true |- _ => apply andb_true_iff in H; let H1 := fresh H in destruct H as [H H1] end.

Lemma vb_lst_item c item sep sb s acc : cx_ws c = None -> bare (RLst item sep) = true -> vb s (lst_item prods E c item sep sb s acc).
Proof.
  intros Hc Hb. bb.
  unfold lst_item. destruct (is_branch prods item).
  - destruct (e_try E item (vars s) (pos s)) as [[|] b| |]; try exact I.
    + apply vb_delim; [vf|]. intros. eapply vb_eq; [eassumption|]. apply (ve_lst E HE); bg.
    + apply vb_cancel; auto. intros s' Hs. cbn [vb]. destruct sep as [[sr []]|]; exact Hs.
  - apply vb_delim; [vp|]. intros. eapply vb_eq; [eassumption|]. apply (ve_lst E HE); bg.
Qed.
Lemma vb_lst c item sep s acc : cx_ws c = None -> bare (RLst item sep) = true -> vb s (lst_step prods E c item sep s acc).
Proof.
  intros Hc Hb. bb. unfold lst_step. destruct sep as [[sr sk]|]; [|apply vb_lst_item; bg].
  destruct (e_try E sr (vars s) (pos s)) as [[|] b| |]; try exact I.
  - apply vb_delim; [vf|]. intros. eapply vb_eq; [eassumption|]. apply vb_lst_item; bg.
  - apply vb_cancel; auto.
Qed.
Lemma vb_lstt_limit c t item sep lim b sp s acc : cx_ws c = None -> bare (RLstT t item sep lim) = true ->
  vb s (lstt_limit inp E c t item sep lim b sp s acc).
Proof.
  intros Hc Hb.
  unfold lstt_limit. destruct (e_try E t (vars s) (pos s)) as [[|] tb| |]; try exact I; [reflexivity|].
  apply vb_cancel; auto. intros s' Hs. destruct (fst _ || _); [exact Hs|].
  eapply vb_eq; [|apply (ve_lstt E HE); bg]. exact Hs.
Qed.
Lemma vb_lstt c t item sep lim ls sp s acc : cx_ws c = None -> bare (RLstT t item sep lim) = true ->
  vb s (lstt_step inp prods E c t item sep lim ls sp s acc).
Proof.
  intros Hc Hb. bb.
  assert (Hgo : forall s' ls sp acc, nw s' = nw s -> vb s (e_lstt E c t item sep lim ls sp s' acc)).
  { intros. eapply vb_eq; [eassumption|]. apply (ve_lstt E HE); bg. }
  assert (Hlim : forall s' b sp, nw s' = nw s -> vb s (lstt_limit inp E c t item sep lim b sp s' acc)).
  { intros. eapply vb_eq; [eassumption|]. apply vb_lstt_limit; bg. }
  assert (Hpar : forall r s', bare r = true -> nw s' = nw s -> vb s (e_parse E c r final s' [])).
  { intros. eapply vb_eq; [eassumption|]. vp. }
  assert (Hfin : forall r b s', bare r = true -> nw s' = nw s -> vb s (e_finish E c r b final s' [])).
  { intros. eapply vb_eq; [eassumption|]. vf. }
  destruct ls; cbn [lstt_step].
  - destruct (e_try E t (vars s) (pos s)) as [[|] b| |]; try exact I; [reflexivity|]. apply vb_cancel; auto.
  - destruct sep as [[sr sk]|]; [|auto]. apply vb_orelse; auto. intros s' Hs.
    destruct (pos s =? pos s'); [|auto]. destruct (is_branch prods item); [|auto].
    destruct (e_try E item (vars s') (pos s')) as [[|] b| |]; try exact I; [|now apply vb_cancel; auto].
    apply vb_orelse; auto. intros. apply vb_cancel; auto.
  - destruct sep as [[sr sk]|]; [|exact I].
    destruct (e_try E t (vars s) (pos s)) as [[|] b| |]; try exact I; [|auto]. destruct sk; reflexivity.
  - apply vb_orelse; auto.
  - apply Hgo. reflexivity.
  - destruct sep as [[sr sk]|].
    + destruct (e_try E sr (vars s) (pos s)) as [[|] sb| |]; try exact I; [|apply vb_cancel; auto].
      apply vb_orelse; auto.
    + destruct (is_branch prods item); [|auto].
      destruct (e_try E item (vars s) (pos s)) as [[|] ib| |]; try exact I; [|apply vb_cancel; auto].
      apply vb_orelse; auto.
Qed.
Lemma vb_comb c dup al n cnt h s acc : cx_ws c = None -> bare al = true -> vb s (comb_step E c dup al n cnt h s acc).
Proof.
  intros Hc Hb. unfold comb_step. destruct (n <=? cnt); [reflexivity|].
  assert (Hp : vb s (e_parse E c al final s [])) by vp.
  destruct (e_parse E c al final s []) as [[] s' m| |]; cbn [vb] in *; auto.
  destruct (nth i h false); eapply vb_eq; try apply (ve_comb E HE); auto.
Qed.
Lemma vb_flags c r t z s : cx_ws c = None -> bare r = true -> vb s (flags_step E c r t z s).
Proof.
  intros Hc Hb.
  unfold flags_step. destruct (e_try E r (vars s) (pos s)) as [[|] b| |]; try exact I.
  - apply vb_delim; [vf|]. intros s' v Hs. destruct v as [|[] []]; try exact I.
    eapply vb_eq; [|now apply (ve_flags E HE)]. destruct (Z.land z z0 =? z0)%Z; exact Hs.
  - apply vb_cancel; auto.
Qed.
Lemma vb_reco c lim al p k s a : cx_ws c = None -> bare al = true -> vk k -> vb s (reco_step inp E c lim al p k s a).
Proof.
  intros Hc Hb Hk. unfold reco_step. destruct (e_try E al (vars s) (pos s)) as [[|] bs| |]; try exact I.
  - eapply vb_eq; [|now apply (ve_finish E HE)]. reflexivity.
  - apply vb_cancel; auto. intros s' Hs. destruct (fst _ || _); [exact Hs|].
    eapply vb_eq; [|now apply (ve_reco E HE)]. exact Hs.
Qed.
Lemma vb_p_lstt c t item sep lim k s a : cx_ws c = None -> bare (RLstT t item sep lim) = true -> vk k ->
  vb s (p_lstt E c t item sep lim k s a).
Proof.
  intros Hc Hb Hk. bb. unfold p_lstt.
  apply vb_orelse; [vp| |]; intros; apply vb_delim;
    try (eapply vb_eq; [eassumption|apply (ve_lstt E HE); bg]); intros s2 v2 H2;
    destruct (e_try E t (vars s2) (pos s2)) as [[|] b| |]; try exact I;
    (eapply vb_eq; [eassumption|]; now apply (ve_finish E HE)).
Qed.
Lemma vb_recw c r k s a : cx_ws c = None -> match r with Some t => bare t | None => true end = true -> vk k ->
  vb s (p_recw E c r k s a).
Proof.
  intros Hc Hb Hk. unfold p_recw.
  set (wsk := Cont false (fun s a => ws_then E c
            (Cont false (fun s a => mark (k_fn k (emit (ERFinish (pos s)) s) a))) s a)).
  assert (Hw : vk wsk).
  { intros s1 a1. cbn [wsk k_fn]. apply vb_ws_then; auto. intros s2 a2. cbn [k_fn]. apply vb_mark.
    eapply vb_eq; [|apply Hk]. reflexivity. }
  assert (Hx : vb s (match r with
            | Some r => e_parse E c r wsk (emit (ERStart (pos s)) s) a
            | None => k_fn wsk (emit (ERStart (pos s)) s) a end)).
  { destruct r; [eapply vb_eq; [|now apply (ve_parse E HE)]|eapply vb_eq; [|apply Hw]]; reflexivity. }
  unfold wsk in *. destruct r; destruct (_ : res) as [? ? []| |] in *; cbn in *; auto.
Qed.
Lemma vb_do_action c p s : cx_ws c = None -> qp p = true -> vb s (do_action prods E c p s).
Proof.
  intros Hc Hp. destruct (Hq p Hp) as [H1 H2]. unfold do_action. set (s1 := emit _ _).
  assert (H : vb s (ws_then E c (Cont false (e_parse E c (p_rule (prods p)) final)) s1 [])).
  { apply vb_ws_then; auto. intros s' a. apply (ve_parse E HE); auto using vk_final. }
  destruct (ws_then E c _ s1 []) as [[]| |]; cbn in *; auto.
Qed.
Lemma child_none c p : cx_ws c = None -> qp p = true -> cx_ws (child_cx prods c p) = None.
Proof. intros Hc Hp. cbn. rewrite (proj1 (Hq p Hp)). now destruct (p_token (prods p)). Qed.
Lemma vb_p_prod c p k s a : cx_ws c = None -> qp p = true -> vk k -> vb s (p_prod prods E c p k s a).
Proof.
  intros Hc Hp Hk. destruct (Hq p Hp) as [H1 H2]. unfold p_prod. rewrite H1. apply vb_prod_after; auto.
  eapply vb_eq; [|apply (ve_parse E HE); auto using vk_final, child_none]. reflexivity.
Qed.
Lemma vb_inc_depth c t s ok : (forall s', nw s' = nw s -> vb s (ok s')) -> vb s (inc_depth c t s ok).
Proof.
  intros H. unfold inc_depth. destruct (cx_max c =? 0); cbn; auto. destruct (cx_max c <=? depth s); cbn; auto.
Qed.
Lemma vb_create id v k s a : vk k -> vb s (p_create id v k s a).
Proof.
  intros Hk. unfold p_create. pose proof (Hk (setvars ((id, v) :: vars s) s) a) as H.
  destruct (k_fn k _ a); cbn [vb] in *; auto.
Qed.

Ltac kq := match goal with Hk : vk ?k |- vb ?s (k_fn ?k ?s' _) =>
  apply (vb_eq s s'); [solve [repeat match goal with |- context [if ?b then _ else _] => destruct b end; unfold nw, nws in *; cbn; congruence]|apply Hk] end.
Ltac vv := first
  [ exact I | reflexivity | assumption | kq
  | apply vb_token_parse; [assumption|intros] | apply vb_ws_then; [assumption|unfold nw, nws in *; cbn; congruence|]
  | apply vb_branch_or; [assumption|assumption| |intros] | apply vb_chc; [assumption|assumption|]
  | apply vb_f_chc; [assumption|assumption|] | apply vb_err | apply vb_p_lstt; [assumption|solve [cbn; rewrite ?andb_true_iff; auto]|]
  | apply vb_recw; [assumption|assumption|] | apply vb_try_after; [assumption|assumption| |]
  | apply vb_p_prod; [assumption|assumption|] | apply vb_prod_after; [assumption| |] | apply vb_create
  | apply vb_inc_depth; intros
  | apply vb_delim; [|intros] | apply vb_cancel; [reflexivity|]; intros
  | match goal with
    | |- vb ?s (rep_run _ _ _ _ _ _ _ ?s' _) => apply (vb_eq s s'); [assumption|apply vb_rep_run; [assumption|assumption|assumption|]]
    | |- vb ?s (p_err _ _ _ ?s') => apply (vb_eq s s'); [assumption|apply vb_err]
    | |- vb ?s (e_parse _ _ _ _ ?s' _) => apply (vb_eq s s'); [unfold nw, nws in *; cbn; congruence|]; apply (ve_parse E HE); [auto using child_none; fail|solve [auto|cbn; rewrite ?andb_true_iff; auto]|]
    | |- vb ?s (e_finish _ _ _ _ _ ?s' _) => apply (vb_eq s s'); [unfold nw, nws in *; cbn; congruence|]; apply (ve_finish E HE); [auto using child_none; fail|solve [auto|cbn; rewrite ?andb_true_iff; auto]|]
    | |- vb ?s (e_reco _ _ _ _ _ _ ?s' _) => apply (vb_eq s s'); [unfold nw, nws in *; cbn; congruence|]; apply (ve_reco E HE); [assumption|auto using bare_alts_of; fail|]
    | |- vb ?s (e_lst _ _ _ _ ?s' _) => apply (vb_eq s s'); [assumption|]; apply (ve_lst E HE); [assumption|cbn; rewrite ?andb_true_iff; auto]
    | |- vb _ (e_comb _ _ _ _ _ _ _ _ _) => apply (ve_comb E HE); [assumption|auto using bare_comb; fail]
    | |- vb _ (e_flags _ _ _ _ _ _) => apply (ve_flags E HE); [assumption|assumption]
    | |- vb _ (sink_finish _ _ _ _) => unfold sink_finish
    | |- vb _ (with_var _ _ _) => unfold with_var
    | |- vb ?s (tok_finish _ _ _ _ _ _ _) => unfold tok_finish; apply vb_ws_then; [assumption|apply (nw_tok _ _ _ s); first [reflexivity|apply negb_true_iff; assumption]|]
    | |- vb _ (p_find _ _ _ _ _) => unfold p_find
    | |- vb _ (p_seq _ ?c ?l ?k _ _) => unfold p_seq; apply (vk_seq c l k); [assumption|solve [auto|cbn; rewrite ?andb_true_iff; auto]|]
    | |- vb _ (p_nsep _ _ _ _ _ _ _) => unfold p_nsep
    | |- vb _ (p_try _ _ _ _ _ _ _ _) => unfold p_try
    | |- vb _ (pas_after _ _ _) => unfold pas_after
    | H : cx_ws ?c = None |- vb _ (match cx_ws ?c with _ => _ end) => rewrite H
    | |- vb _ (let '_ := ?x in _) => destruct x
    | |- vb _ (match ?x with _ => _ end) => destruct x
    | |- vb _ (k_fn _ _ (match ?x with _ => _ end)) => destruct x
    | |- vb _ (k_fn _ (match ?x with _ => _ end) _) => destruct x
    | |- vk (seq_cont _ _ _ _) => apply vk_seq; [assumption|solve [auto|cbn; rewrite ?andb_true_iff; auto]|]
    | |- vk (depth_cont _) => apply vk_depth
    | |- vk (nows_cont _ _ _) => apply vk_nows; [assumption|]
    | |- vk (push_cont _ _ _ _) => apply vk_push
    | |- vk (capr_cont _ _ _ _ _) => apply vk_capr; [assumption|]
    | |- vk (try_cont _ _ _ _) => apply vk_try_cont; [assumption|solve [auto]|]
    | |- vk final => apply vk_final
    | |- vk ?k => first [assumption | intros ? ?; cbn [k_fn]]
    end ].

Lemma vb_parse c r k s a : cx_ws c = None -> bare r = true -> vk k -> vb s (parse_step inp prods E c r k s a).
Proof.
  intros Hc Hb Hk.
  assert (Hl : forall r, bare r = true -> vb s (parse_step inp prods E c (RLoop r) k s a)).
  { intros r0 Hr0. cbn [parse_step]. assert (Hp : vb s (e_parse E c r0 final s [])) by vp.
    destruct (e_parse E c r0 final s []) as [[] s'| |]; cbn [vb] in *; auto; repeat vv. }
  assert (Hs : forall p, qp p = true -> vb s (parse_step inp prods E c (RSub p) k s a)).
  { intros p Hp. cbn [parse_step].
    assert (Hx : vb s (do_action prods E (Cx (p_ws (prods p)) (cx_max c)) p (setvars [] s))).
    { eapply vb_eq; [|apply vb_do_action; auto; apply (Hq p Hp)]. reflexivity. }
    destruct (do_action _ _ _ _ _) as [[] s'| |]; cbn [vb] in *; auto; repeat vv. }
  destruct r; cbn [bare] in Hb; bb; try (apply Hl; assumption); try (apply Hs; assumption); cbn [parse_step]; try discriminate; repeat vv.
Qed.

Lemma vb_finish c r b k s a : cx_ws c = None -> bare r = true -> vk k -> vb s (finish_step inp prods E c r b k s a).
Proof. intros Hc Hb Hk. destruct r; cbn [bare] in Hb; bb; cbn [finish_step]; try discriminate;
  try match goal with H : qp ?p = true |- _ => destruct (Hq p H) end; repeat vv. Qed.

End Step.

Lemma ve_eng n : ve (eng inp prods n).
Proof.
  induction n as [|n IH]; [exact ve_0|].
  split; intros.
  - apply debug_nws. eapply Cancels_debug, cancel_Cancels; eauto.
  - cbn [eng step e_parse]. now apply vb_parse.
  - cbn [eng step e_finish]. now apply vb_finish.
  - cbn [eng step e_reco]. now apply vb_reco.
  - cbn [eng step e_lst]. now apply vb_lst.
  - cbn [eng step e_lstt]. now apply vb_lstt.
  - cbn [eng step e_comb]. now apply vb_comb.
  - cbn [eng step e_flags]. now apply vb_flags.
Qed.

(** Running a rule where no whitespace rule is in force. *)
Theorem runs_nows c r s o s' : cx_ws c = None -> bare r = true -> Runs inp prods c r s o s' ->
  nws (trace s') = nws (trace s).
Proof.
  intros Hc Hb H. apply Runs_at in H. destruct H as (n & m & H).
  pose proof (ve_parse _ (ve_eng n) c r final s [] Hc Hb vk_final) as Hp. rewrite H in Hp. exact Hp.
Qed.

End NoWs.
