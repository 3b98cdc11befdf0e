(** The engine on a text with something in front of it does what it does on the text alone. *)
From Verif Require Import Prelude RuleModel HaltSpec ShiftSpec ShiftModel ShiftBase.
Close Scope N_scope.

Section Par.
Variables pre inp : list N.
Variable prods : nat -> production.
Hypothesis HG : movable prods.
Notation d := (length pre).
Notation inp' := (pre ++ inp).
Notation mvs := (map (move_val (length pre))).
Notation mvss := (map (map (move_val (length pre)))).
Notation me := (move_event (length pre)).
Notation ms := (move_st (length pre)).
Notation mr := (move_res (length pre)).
Notation mb := (move_bst (length pre)).
Notation mvar := (map (move_var (length pre))).

Definition okc (c : cx) : Prop := forall w, cx_ws c = Some w -> okr w.
Definition oksep (sep : option (rule * sepk)) : Prop := match sep with Some (r, _) => okr r | None => True end.
Definition oko (o : option rule) : Prop := match o with Some r => okr r | None => True end.

Definition rr (r r' : res) : Prop := r' = mr r.
Definition kr (k k' : cont) : Prop :=
  k_nows k = k_nows k' /\ forall s a, rr (k_fn k s a) (k_fn k' (ms s) (mvs a)).

Record par (E E' : engine) : Prop := {
  par_parse : forall c r k k' s a, okr r -> okc c -> kr k k' ->
    rr (e_parse E c r k s a) (e_parse E' c r k' (ms s) (mvs a));
  par_try : forall r vs p, okr r -> e_try E' r (mvar vs) (d + p) = move_bres d (e_try E r vs p);
  par_finish : forall c r b k k' s a, okr r -> okc c -> kr k k' ->
    rr (e_finish E c r b k s a) (e_finish E' c r (mb b) k' (ms s) (mvs a));
  par_cancel : forall r b, okr r -> e_cancel E' r (mb b) = option_map (map me) (e_cancel E r b);
  par_ws : forall w p, okr w -> e_wsloop E' w (d + p) = move_tres d (e_wsloop E w p);
  par_lst : forall c i sep s acc, okr i -> oksep sep -> okc c ->
    rr (e_lst E c i sep s acc) (e_lst E' c i sep (ms s) (mvss acc));
  par_lstt : forall c te i sep lim ls sp s acc, okr te -> okr i -> oksep sep -> movable_token lim -> okc c ->
    rr (e_lstt E c te i sep lim ls sp s acc) (e_lstt E' c te i sep lim (move_ls d ls) (d + sp) (ms s) (mvss acc));
  par_reco : forall c lim al b k k' s a, okr al -> movable_token lim -> okc c -> kr k k' ->
    rr (e_reco E c lim al b k s a) (e_reco E' c lim al (d + b) k' (ms s) (mvs a));
  par_comb : forall c t al n cnt h s acc, okr al -> okc c ->
    rr (e_comb E c t al n cnt h s acc) (e_comb E' c t al n cnt h (ms s) (mvss acc));
  par_flags : forall c r tg z s, okr r -> okc c ->
    rr (e_flags E c r tg z s) (e_flags E' c r tg z (ms s))
}.

Lemma rr_res o s m : rr (Res o s m) (Res (move_out d o) (ms s) m).
Proof. reflexivity. Qed.
Lemma rr_crash : rr Crash Crash.
Proof. reflexivity. Qed.
Lemma rr_nofuel : rr NoFuel NoFuel.
Proof. reflexivity. Qed.

Lemma kr_k k k' s a : kr k k' -> rr (k_fn k s a) (k_fn k' (ms s) (mvs a)).
Proof. intros [_ H]. apply H. Qed.
(** The same with the new state and arguments given in another form. *)
Lemma kr_k2 k k' s a s' a' : kr k k' -> s' = ms s -> a' = mvs a -> rr (k_fn k s a) (k_fn k' s' a').
Proof. intros [_ H] -> ->. apply H. Qed.

Lemma kr_final : kr final final.
Proof. split; reflexivity. Qed.
Lemma kr_cont b f f' : (forall s a, rr (f s a) (f' (ms s) (mvs a))) -> kr (Cont b f) (Cont b f').
Proof. intros H. split; auto. Qed.

Lemma rr_delim r r' f f' : rr r r' -> (forall s v, rr (f s v) (f' (ms s) (mvs v))) ->
  rr (delim r f) (delim r' f').
Proof. intros -> Hf. destruct r as [[] s m| |]; cbn; auto using rr_crash, rr_nofuel; reflexivity. Qed.
Lemma rr_orelse r r' f f' g g' : rr r r' -> (forall s v, rr (f s v) (f' (ms s) (mvs v))) ->
  (forall s, rr (g s) (g' (ms s))) -> rr (orelse r f g) (orelse r' f' g').
Proof. intros -> Hf Hg. destruct r as [[] s m| |]; cbn; auto using rr_crash, rr_nofuel. Qed.
Lemma rr_mark r r' : rr r r' -> rr (mark r) (mark r').
Proof. intros ->. destruct r; reflexivity. Qed.

Section Step.
Variables E E' : engine.
Hypothesis HE : par E E'.

Lemma par_final c r s : okr r -> okc c -> rr (e_parse E c r final s []) (e_parse E' c r final (ms s) []).
Proof. intros. apply (par_parse _ _ HE c r final final s []); auto using kr_final. Qed.
Lemma par_ffinal c r b s : okr r -> okc c ->
  rr (e_finish E c r b final s []) (e_finish E' c r (mb b) final (ms s) []).
Proof. intros. apply (par_finish _ _ HE c r b final final s []); auto using kr_final. Qed.

Lemma okc_sub : okc sub_cx.
Proof. intros w H. discriminate. Qed.

Lemma par_run_token r p : okr r -> run_token E' r (d + p) = move_tres d (run_token E r p).
Proof.
  intros Hr. unfold run_token. pose proof (par_final sub_cx r (sub_st p) Hr okc_sub) as H.
  change (ms (sub_st p)) with (sub_st (d + p)) in H. rewrite H.
  destruct (e_parse E sub_cx r final (sub_st p) []) as [[] s m| |]; cbn; auto. now rewrite mv_has_err.
Qed.

Lemma par_tmatch r p : okr r -> tmatch inp' E' r (d + p) = move_tres d (tmatch inp E r p).
Proof.
  intros Hr. destruct r; cbn [tmatch]; try (apply par_run_token; assumption).
  - destruct Hr as [Hr _]. rewrite (proj1 (Hr pre inp p)). reflexivity.
  - apply par_run_token. apply Hr.
Qed.

Lemma mv_terror r p e : okr r -> terror inp' r (d + p) (d + e) = me (terror inp r p e).
Proof.
  intros Hr. destruct r; cbn [terror]; try reflexivity.
  destruct Hr as [Hr _]. rewrite (proj2 (Hr pre inp p)). destruct (tk_err t inp p) as [[? ?] ?]. reflexivity.
Qed.

Lemma par_token_parse r s f f' : okr r -> (forall e s, rr (f e s) (f' (d + e) (ms s))) ->
  rr (token_parse inp E r s f) (token_parse inp' E' r (ms s) f').
Proof.
  intros Hr Hf. unfold token_parse. cbn [pos move_st]. rewrite (par_tmatch _ _ Hr).
  destruct (tmatch inp E r (pos s)) as [[|] e| |]; cbn [move_tres].
  - exact (Hf e (setpos e (emit (EToken (tkind_of r) (pos s) e) s))).
  - unfold rr. cbn [move_res]. rewrite ms_setpos, !ms_emit, <- (mv_terror _ _ _ Hr). reflexivity.
  - apply rr_nofuel.
  - apply rr_crash.
Qed.

Lemma par_wsloop w p : okr w -> wsloop_step inp' E' w (d + p) = move_tres d (wsloop_step inp E w p).
Proof.
  intros Hw. unfold wsloop_step. rewrite (par_tmatch _ _ Hw).
  destruct (tmatch inp E w p) as [[|] e| |]; cbn [move_tres]; auto. now apply (par_ws _ _ HE).
Qed.

Lemma par_skip_ws w s f f' : okr w -> (forall s, rr (f s) (f' (ms s))) ->
  rr (skip_ws E w s f) (skip_ws E' w (ms s) f').
Proof.
  intros Hw Hf. unfold skip_ws. cbn [pos move_st]. apply ok_strip in Hw. destruct (token_rule (strip_ws w)).
  - rewrite (par_ws _ _ HE _ _ Hw).
    destruct (e_wsloop E (strip_ws w) (pos s)) as [b e| |]; cbn [move_tres]; auto using rr_nofuel, rr_crash.
    exact (Hf (setpos e (emit (EToken KWhitespace (pos s) e) s))).
  - assert (Ho : okr (RLoop (chc_or (strip_ws w) RBreak))).
    { split; [exact I|]. apply ok_chc_or; auto. split; exact I. }
    pose proof (par_final sub_cx _ (sub_st (pos s)) Ho okc_sub) as H.
    change (ms (sub_st (pos s))) with (sub_st (d + pos s)) in H. rewrite H.
    destruct (e_parse E sub_cx (RLoop (chc_or (strip_ws w) RBreak)) final (sub_st (pos s)) []) as [[] x m| |];
      cbn [move_res move_out]; auto using rr_nofuel, rr_crash.
    + unfold rr. cbn [move_res move_out]. rewrite ms_setpos, ms_emit, ms_emits, map_rev. cbn [trace move_st].
      rewrite mv_errors. reflexivity.
    + specialize (Hf (setpos (pos x) (emit (EToken KWhitespace (pos s) (pos x)) (emits (rev (filter is_err (trace x))) s)))).
      rewrite ms_setpos, ms_emit, ms_emits, map_rev in Hf. cbn [trace move_st]. rewrite mv_errors. exact Hf.
Qed.

Lemma par_ws_then c k k' s a : okc c -> kr k k' -> rr (ws_then E c k s a) (ws_then E' c k' (ms s) (mvs a)).
Proof.
  intros Hc Hk. unfold ws_then. destruct (cx_ws c) as [w|] eqn:Hw; [|now apply kr_k].
  rewrite (proj1 Hk). cbn [wsf move_st]. destruct (k_nows k' || negb (wsf s)); [now apply kr_k|].
  apply par_skip_ws; [now apply Hc|]. intros. now apply kr_k.
Qed.

Lemma par_tok_finish c kd e k k' s a : okc c -> kr k k' ->
  rr (tok_finish E c kd e k s a) (tok_finish E' c kd (d + e) k' (ms s) (mvs a)).
Proof.
  intros Hc Hk. unfold tok_finish.
  exact (par_ws_then c k k' (setpos e (emit (EToken kd (pos s) e) s)) a Hc Hk).
Qed.

Lemma par_cancel_then r b s f f' : okr r -> (forall s, rr (f s) (f' (ms s))) ->
  rr (cancel_then E r b s f) (cancel_then E' r (mb b) (ms s) f').
Proof.
  intros Hr Hf. unfold cancel_then. rewrite (par_cancel _ _ HE _ _ Hr).
  destruct (e_cancel E r b); cbn [option_map]; [|apply rr_nofuel]. rewrite <- ms_emits. apply Hf.
Qed.

Ltac tryp H := rewrite H; [|assumption];
  match goal with |- context [move_bres _ ?x] => destruct x as [[|] ?b| |]; cbn [move_bres] end;
  auto using rr_nofuel, rr_crash.

Lemma par_branch_or c r k k' s a f f' : okr r -> okc c -> kr k k' -> (forall s, rr (f s) (f' (ms s))) ->
  rr (branch_or E c r k s a f) (branch_or E' c r k' (ms s) (mvs a) f').
Proof.
  intros Hr Hc Hk Hf. unfold branch_or. cbn [pos vars move_st]. tryp (par_try _ _ HE r (vars s) (pos s)).
  - now apply (par_finish _ _ HE).
  - now apply par_cancel_then.
Qed.

Lemma par_seq_cont c rs k k' : Forall okr rs -> okc c -> kr k k' -> kr (seq_cont E c rs k) (seq_cont E' c rs k').
Proof.
  intros Hr Hc Hk. induction Hr as [|r rs Hr Hrs IH]; cbn [seq_cont]; auto. split; cbn [k_nows k_fn].
  - now rewrite (proj1 IH).
  - intros. now apply (par_parse _ _ HE).
Qed.

Lemma par_p_chc c u rs k k' a : Forall okr rs -> okc c -> kr k k' -> forall s,
  rr (p_chc E c u rs k s a) (p_chc E' c u rs k' (ms s) (mvs a)).
Proof.
  intros Hr Hc Hk. induction Hr as [|r rs Hr Hrs IH]; intros s; cbn [p_chc].
  - destruct u; [apply rr_crash|reflexivity].
  - apply par_branch_or; auto.
Qed.

Lemma par_t_chc rs : Forall okr rs -> forall i vs p,
  t_chc E' rs i (mvar vs) (d + p) = move_bres d (t_chc E rs i vs p).
Proof.
  induction 1 as [|r rs Hr Hrs IH]; intros i vs p; cbn [t_chc]; [reflexivity|].
  rewrite (par_try _ _ HE _ _ _ Hr). destruct (e_try E r vs p) as [[|] b| |]; cbn [move_bres]; auto.
  rewrite IH. destruct (t_chc E rs (S i) vs p) as [ok []| |]; cbn; auto.
Qed.

Lemma par_c_chc rs : Forall okr rs -> forall bs, c_chc E' rs (map mb bs) = option_map (map me) (c_chc E rs bs).
Proof.
  induction 1 as [|r rs Hr Hrs IH]; intros bs; cbn [c_chc]; [reflexivity|].
  rewrite mb_hd, mb_tl, (par_cancel _ _ HE _ _ Hr), IH.
  destruct (e_cancel E r (hd BNone bs)), (c_chc E rs (tl bs)); cbn; auto. now rewrite map_app.
Qed.

Lemma par_f_chc c rs k k' a : Forall okr rs -> okc c -> kr k k' -> forall i bs s,
  rr (f_chc E c rs i bs k s a) (f_chc E' c rs i (map mb bs) k' (ms s) (mvs a)).
Proof.
  intros Hr Hc Hk. induction Hr as [|r rs Hr Hrs IH]; intros [|i] bs s; cbn [f_chc]; try apply rr_crash.
  - rewrite mb_hd. now apply (par_finish _ _ HE).
  - rewrite mb_hd, mb_tl. apply par_cancel_then; auto.
Qed.

Lemma par_p_err tg r s : oko r -> rr (p_err E tg r s) (p_err E' tg r (ms s)).
Proof.
  intros Hr. unfold p_err. destruct r as [r|]; [|reflexivity].
  cbn [pos move_st]. rewrite (par_run_token _ _ Hr).
  destruct (run_token E r (pos s)) as [b e| |]; cbn [move_tres]; auto using rr_nofuel, rr_crash. reflexivity.
Qed.

Lemma par_lst_item c i sep sb s acc : okr i -> oksep sep -> okc c ->
  rr (lst_item prods E c i sep sb s acc) (lst_item prods E' c i sep (d + sb) (ms s) (mvss acc)).
Proof.
  intros Hi Hs Hc. unfold lst_item. cbn [pos vars move_st]. destruct (is_branch prods i).
  - tryp (par_try _ _ HE i (vars s) (pos s)).
    + apply rr_delim; [now apply par_ffinal|]. intros. rewrite <- mv_push. now apply (par_lst _ _ HE).
    + apply par_cancel_then; auto. intros s1. destruct sep as [[? k]|]; [|reflexivity].
      unfold rr. cbn [move_res]. rewrite mv_report. reflexivity.
  - apply rr_delim; [now apply par_final|]. intros. rewrite <- mv_push. now apply (par_lst _ _ HE).
Qed.

Lemma par_lst_step c i sep s acc : okr i -> oksep sep -> okc c ->
  rr (lst_step prods E c i sep s acc) (lst_step prods E' c i sep (ms s) (mvss acc)).
Proof.
  intros Hi Hs Hc. unfold lst_step. cbn [pos vars move_st]. destruct sep as [[sr k]|]; [|now apply par_lst_item].
  cbn [oksep] in Hs. tryp (par_try _ _ HE sr (vars s) (pos s)).
  - apply rr_delim; [now apply par_ffinal|]. intros. rewrite <- mv_push. now apply par_lst_item.
  - apply par_cancel_then; auto. intros. reflexivity.
Qed.

Lemma mv_limit lim p : movable_token lim ->
  fst (tk_try lim inp' (d + p)) || eof inp' (d + p) = fst (tk_try lim inp p) || eof inp p.
Proof. intros Hl. rewrite (proj1 (Hl pre inp p)), mv_eof. reflexivity. Qed.

Lemma par_lstt_limit c te i sep lim b sp s acc : okr te -> okr i -> oksep sep -> movable_token lim -> okc c ->
  rr (lstt_limit inp E c te i sep lim b sp s acc)
     (lstt_limit inp' E' c te i sep lim (d + b) (d + sp) (ms s) (mvss acc)).
Proof.
  intros Ht Hi Hs Hl Hc. unfold lstt_limit. cbn [pos vars move_st].
  tryp (par_try _ _ HE te (vars s) (pos s)); [reflexivity|].
  apply par_cancel_then; auto. intros s1. cbn [pos move_st]. rewrite mv_limit by assumption.
  destruct (fst (tk_try lim inp (pos s1)) || eof inp (pos s1)); [reflexivity|].
  pose proof (par_lstt _ _ HE c te i sep lim (LSearch b) sp (setpos (S (pos s1)) s1) acc Ht Hi Hs Hl Hc) as H.
  rewrite ms_setpos in H. replace (d + S (pos s1)) with (S (d + pos s1)) in H by lia. exact H.
Qed.

Lemma par_lstt_step c te i sep lim ls sp s acc : okr te -> okr i -> oksep sep -> movable_token lim -> okc c ->
  rr (lstt_step inp prods E c te i sep lim ls sp s acc)
     (lstt_step inp' prods E' c te i sep lim (move_ls d ls) (d + sp) (ms s) (mvss acc)).
Proof.
  intros Ht Hi Hs Hl Hc. unfold lstt_step.
  assert (Hgo : forall ls sp s acc, rr (e_lstt E c te i sep lim ls sp s acc)
    (e_lstt E' c te i sep lim (move_ls d ls) (d + sp) (ms s) (mvss acc)))
    by (intros; now apply (par_lstt _ _ HE)).
  assert (Hpush : forall ls sp s v acc, rr (e_lstt E c te i sep lim ls sp s (push v acc))
    (e_lstt E' c te i sep lim (move_ls d ls) (d + sp) (ms s) (push (mvs v) (mvss acc))))
    by (intros; rewrite <- mv_push; apply Hgo).
  cbn [pos vars move_st]. destruct ls; cbn [move_ls].
  - tryp (par_try _ _ HE te (vars s) (pos s)); [reflexivity|].
    apply par_cancel_then; auto. intros. apply (Hgo LSep).
  - destruct sep as [[sr k]|]; [|apply (Hgo LItem)]. cbn [oksep] in Hs.
    apply rr_orelse; [now apply par_final|intros; apply (Hpush LTrail)|]. intros s1. cbn [pos vars move_st].
    replace (d + pos s =? d + pos s1) with (pos s =? pos s1)
      by (destruct (Nat.eqb_spec (pos s) (pos s1)), (Nat.eqb_spec (d + pos s) (d + pos s1)); auto; lia).
    destruct (pos s =? pos s1); [|apply (Hgo LRecovery)]. destruct (is_branch prods i); [|apply (Hgo LRecovery)].
    tryp (par_try _ _ HE i (vars s1) (pos s1)).
    + apply rr_orelse; [now apply par_ffinal|intros; apply (Hpush LTerm)|].
      intros. apply par_cancel_then; auto. intros. apply (Hgo LRecovery).
    + apply par_cancel_then; auto. intros. apply (Hgo LRecovery).
  - destruct sep as [[sr k]|]; auto using rr_crash.
    tryp (par_try _ _ HE te (vars s) (pos s)); [|apply (Hgo LItem)].
    unfold rr. cbn [move_res]. rewrite mv_report. reflexivity.
  - apply rr_orelse; [now apply par_final|intros; apply (Hpush LTerm)|intros; apply (Hgo LRecovery)].
  - apply (Hgo (LSearch (pos s)) sp (emit (ERStart (pos s)) s)).
  - destruct sep as [[sr k]|].
    + cbn [oksep] in Hs. tryp (par_try _ _ HE sr (vars s) (pos s)).
      * apply rr_orelse; [now apply (par_ffinal c sr b0 (lstt_recovered b s))|intros; apply (Hpush LTrail)|intros; apply (Hgo LRecovery)].
      * apply par_cancel_then; auto. intros. now apply par_lstt_limit.
    + destruct (is_branch prods i); [|now apply par_lstt_limit].
      tryp (par_try _ _ HE i (vars s) (pos s)).
      * apply rr_orelse; [now apply (par_ffinal c i b0 (lstt_recovered b s))|intros; apply (Hpush LTerm)|intros; apply (Hgo LRecovery)].
      * apply par_cancel_then; auto. intros. now apply par_lstt_limit.
Qed.

Lemma par_p_lstt c te i sep lim k k' s a : okr te -> okr i -> oksep sep -> movable_token lim -> okc c -> kr k k' ->
  rr (p_lstt E c te i sep lim k s a) (p_lstt E' c te i sep lim k' (ms s) (mvs a)).
Proof.
  intros Ht Hi Hs Hl Hc Hk. unfold p_lstt.
  assert (Hgo : forall ls sp s acc, rr (e_lstt E c te i sep lim ls sp s acc)
    (e_lstt E' c te i sep lim (move_ls d ls) (d + sp) (ms s) (mvss acc)))
    by (intros; now apply (par_lstt _ _ HE)).
  apply rr_orelse; [now apply par_final|..]; intros s1; [intros v1|]; cbn [pos move_st].
  - apply rr_delim; [change (@nil (list val)) with (mvss []); rewrite <- mv_push; apply (Hgo LTerm)|].
    intros s2 v2; cbn [pos vars move_st]. tryp (par_try _ _ HE te (vars s2) (pos s2)).
    rewrite <- map_app. now apply (par_finish _ _ HE).
  - apply rr_delim; [apply (Hgo LRecovery _ _ [])|].
    intros s2 v2; cbn [pos vars move_st]. tryp (par_try _ _ HE te (vars s2) (pos s2)).
    rewrite <- map_app. now apply (par_finish _ _ HE).
Qed.

Lemma par_p_nsep c b tg k k' s a : okr b -> okc c -> kr k k' ->
  rr (p_nsep E c b tg k s a) (p_nsep E' c b tg k' (ms s) (mvs a)).
Proof.
  intros Hb Hc Hk. unfold p_nsep. apply par_branch_or; auto.
  - apply kr_cont. intros s1 a1. exact (kr_k k k' (emit (EError tg (pos s) (pos s1)) s1) a1 Hk).
  - intros. now apply kr_k.
Qed.

Lemma par_p_find f k k' s a : movable_finder f -> kr k k' ->
  rr (p_find inp f k s a) (p_find inp' f k' (ms s) (mvs a)).
Proof.
  intros Hf Hk. unfold p_find. cbn [pos move_st]. rewrite mv_search_from by assumption.
  destruct (search_from inp f (pos s)) as [[[|] b] e]; cbn [fst snd].
  - exact (kr_k k k' (setpos b (emit (ERFinish b) (emit (EToken KError (pos s) b) (emit (ERStart (pos s)) s)))) a Hk).
  - reflexivity.
Qed.

Lemma par_reco_step c lim al b k k' s a : okr al -> movable_token lim -> okc c -> kr k k' ->
  rr (reco_step inp E c lim al b k s a) (reco_step inp' E' c lim al (d + b) k' (ms s) (mvs a)).
Proof.
  intros Ha Hl Hc Hk. unfold reco_step. cbn [pos vars move_st]. tryp (par_try _ _ HE al (vars s) (pos s)).
  - now apply (par_finish _ _ HE c al b0 k k' (emit (ERFinish (pos s)) (emit (EToken KError b (pos s)) s)) a).
  - apply par_cancel_then; auto. intros s1. cbn [pos move_st]. rewrite mv_limit by assumption.
    destruct (fst (tk_try lim inp (pos s1)) || eof inp (pos s1)); [reflexivity|].
    pose proof (par_reco _ _ HE c lim al b k k' (setpos (S (pos s1)) s1) a Ha Hl Hc Hk) as H.
    rewrite ms_setpos in H. replace (d + S (pos s1)) with (S (d + pos s1)) in H by lia. exact H.
Qed.

Lemma par_p_recw c r k k' s a : oko r -> okc c -> kr k k' ->
  rr (p_recw E c r k s a) (p_recw E' c r k' (ms s) (mvs a)).
Proof.
  intros Hr0 Hc Hk. unfold p_recw.
  set (K := Cont false (fun s a => mark (k_fn k (emit (ERFinish (pos s)) s) a))).
  set (K' := Cont false (fun s a => mark (k_fn k' (emit (ERFinish (pos s)) s) a))).
  assert (HK : kr K K').
  { apply kr_cont. intros s1 a1. apply rr_mark. exact (kr_k k k' (emit (ERFinish (pos s1)) s1) a1 Hk). }
  set (W := Cont false (fun s a => ws_then E c K s a)).
  set (W' := Cont false (fun s a => ws_then E' c K' s a)).
  assert (HW : kr W W').
  { apply kr_cont. intros. now apply par_ws_then. }
  assert (Hr : rr (match r with None => k_fn W (emit (ERStart (pos s)) s) a
                                | Some r => e_parse E c r W (emit (ERStart (pos s)) s) a end)
                    (match r with None => k_fn W' (emit (ERStart (pos (ms s))) (ms s)) (mvs a)
                                | Some r => e_parse E' c r W' (emit (ERStart (pos (ms s))) (ms s)) (mvs a) end)).
  { destruct r as [r|].
    - now apply (par_parse _ _ HE c r W W' (emit (ERStart (pos s)) s) a).
    - exact (kr_k W W' (emit (ERStart (pos s)) s) a HW). }
  rewrite Hr. destruct (match r with None => _ | Some _ => _ end) as [o s0 [|m]| |]; reflexivity.
Qed.

Lemma par_try_recover c rec k k' s a : oko rec -> okc c -> kr k k' ->
  rr (try_recover E c rec k s a) (try_recover E' c rec k' (ms s) (mvs a)).
Proof.
  intros Hr Hc Hk. unfold try_recover.
  assert (Hw : forall r, oko r -> okr (RRecW r)) by (intros [r|] H; split; auto; exact I).
  destruct rec as [[]|]; apply (par_parse _ _ HE); auto.
Qed.

Lemma par_try_after c rec k k' a r r' : oko rec -> okc c -> kr k k' -> rr r r' ->
  rr (try_after E c rec k a r) (try_after E' c rec k' (mvs a) r').
Proof.
  intros Hr Hc Hk ->. unfold try_after. destruct r as [[] s [|m]| |]; cbn [move_res move_out];
    auto using rr_crash, rr_nofuel, rr_res; try reflexivity. now apply par_try_recover.
Qed.

Lemma par_try_cont c te k k' : oko te -> okc c -> kr k k' -> kr (try_cont E c te k) (try_cont E' c te k').
Proof.
  intros Ht Hc Hk. apply kr_cont. intros. apply rr_mark. destruct te; [now apply (par_parse _ _ HE)|now apply kr_k].
Qed.

Lemma par_p_try c te r rec k k' s a : oko te -> okr r -> oko rec -> okc c -> kr k k' ->
  rr (p_try E c te r rec k s a) (p_try E' c te r rec k' (ms s) (mvs a)).
Proof.
  intros Ht Hr Hre Hc Hk. unfold p_try. apply par_try_after; auto. apply (par_parse _ _ HE); auto. now apply par_try_cont.
Qed.

Lemma okc_child c p : okc c -> okc (child_cx prods c p).
Proof.
  intros Hc w. unfold child_cx. cbn [cx_ws]. destruct (HG p) as [_ Hw].
  destruct (p_token (prods p)); [apply Hw|]. destruct (p_ws (prods p)) eqn:E0; [intros [= <-]; now apply Hw|apply Hc].
Qed.

Lemma par_prod_after c p k k' a r r' : okc c -> kr k k' -> rr r r' ->
  rr (prod_after prods E c p k a r) (prod_after prods E' c p k' (mvs a) r').
Proof.
  intros Hc Hk ->. unfold prod_after. destruct r as [[] s m| |]; cbn [move_res move_out]; auto using rr_crash, rr_nofuel.
  - reflexivity.
  - unfold prod_finish. cbn [pos move_st].
    assert (Ha : mvs a ++ [VProd p (mvs vs)] = mvs (a ++ [VProd p vs])) by (rewrite map_app; reflexivity).
    rewrite Ha. destruct (p_token (prods p)).
    + exact (par_ws_then c k k' (emit (EPFinish p (pos s)) s) _ Hc Hk).
    + exact (kr_k k k' (emit (EPFinish p (pos s)) s) _ Hk).
Qed.

Lemma par_p_prod c p k k' s a : okc c -> kr k k' ->
  rr (p_prod prods E c p k s a) (p_prod prods E' c p k' (ms s) (mvs a)).
Proof.
  intros Hc Hk. unfold p_prod. pose proof (okc_child c p Hc) as Hc'. destruct (HG p) as [Hr _].
  destruct (p_ws (prods p)); apply par_prod_after; auto.
  - apply (par_ws_then _ (Cont false (fun s _ => e_parse E (child_cx prods c p) (p_rule (prods p)) final s []))
      _ (emit (EPStart p (pos s)) s) [] Hc').
    apply kr_cont. intros. now apply par_final.
  - now apply (par_final _ _ (emit (EPStart p (pos s)) s)).
Qed.

Lemma par_depth_cont k k' : kr k k' -> kr (depth_cont k) (depth_cont k').
Proof. intros Hk. apply kr_cont. intros s a. exact (kr_k k k' (setdepth (pred (depth s)) s) a Hk). Qed.

Lemma par_inc_depth c tg s f f' : (forall s, rr (f s) (f' (ms s))) ->
  rr (inc_depth c tg s f) (inc_depth c tg (ms s) f').
Proof.
  intros Hf. unfold inc_depth. cbn [depth move_st]. destruct (cx_max c =? 0); [apply rr_crash|].
  destruct (cx_max c <=? depth s); [reflexivity|]. exact (Hf (setdepth (S (depth s)) s)).
Qed.

Lemma par_nows_cont c k k' : okc c -> kr k k' -> kr (nows_cont E c k) (nows_cont E' c k').
Proof. intros Hc Hk. apply kr_cont. intros s a. exact (par_ws_then c k k' (setwsf true s) a Hc Hk). Qed.

Lemma ok_trailing sr k : okr sr -> okr (trailing_rule (sr, k)).
Proof. intros H. destruct k; cbn; split; auto. Qed.

Lemma par_rep_more c i sep n : okr i -> oksep sep -> okc c -> forall s acc,
  rr (rep_more E c i sep n s acc) (rep_more E' c i sep n (ms s) (mvss acc)).
Proof.
  intros Hi Hs Hc. induction n as [|n IH]; intros s acc; cbn [rep_more].
  - destruct sep as [[sr k]|]; [|reflexivity].
    apply rr_delim; [apply par_final; auto; now apply ok_trailing|]. intros. rewrite <- mv_push. reflexivity.
  - destruct sep as [[sr k]|]; cbn [oksep] in Hs.
    + apply rr_delim; [now apply par_final|]. intros. apply rr_delim; [now apply par_final|].
      intros. rewrite <- !mv_push. auto.
    + apply rr_delim; [now apply par_final|]. intros. rewrite <- mv_push. auto.
Qed.

Lemma par_rep_run c m i sep k k' a s vs : okr i -> oksep sep -> okc c -> kr k k' ->
  rr (rep_run E c m i sep k a s vs) (rep_run E' c m i sep k' (mvs a) (ms s) (mvs vs)).
Proof.
  intros Hi Hs Hc Hk. unfold rep_run. rewrite mv_count. destruct (count_of vs) as [n|]; [|apply rr_crash].
  apply rr_delim.
  - unfold rep_loop. destruct n; [reflexivity|].
    apply rr_delim; [now apply par_final|]. intros.
    change (@nil (list val)) with (mvss []). rewrite <- mv_push. now apply par_rep_more.
  - intros s1 v. cbn [pos move_st]. apply kr_k2; auto. destruct m; rewrite ?map_app; reflexivity.
Qed.

Lemma par_comb_step c t al n cnt h s acc : okr al -> okc c ->
  rr (comb_step E c t al n cnt h s acc) (comb_step E' c t al n cnt h (ms s) (mvss acc)).
Proof.
  intros Ha Hc. unfold comb_step. destruct (n <=? cnt); [reflexivity|].
  rewrite (par_final c al s Ha Hc). destruct (e_parse E c al final s []) as [[] s0 m| |];
    cbn [move_res move_out]; auto using rr_crash, rr_nofuel; try reflexivity.
  destruct (nth i h false).
  - now apply (par_comb _ _ HE c t al n cnt h (emit (EError t (pos s) (pos s0)) s0)).
  - rewrite <- mv_push. now apply (par_comb _ _ HE).
Qed.

Lemma par_flags_step c r tg z s : okr r -> okc c ->
  rr (flags_step E c r tg z s) (flags_step E' c r tg z (ms s)).
Proof.
  intros Hr Hc. unfold flags_step. cbn [pos vars move_st]. tryp (par_try _ _ HE r (vars s) (pos s)).
  - apply rr_delim; [now apply par_ffinal|]. intros s1 vs. cbn [pos move_st].
    destruct vs as [|[] [|]]; cbn [map move_val]; auto using rr_crash.
    destruct (Z.eqb (Z.land z z0) z0); [|now apply (par_flags _ _ HE)].
    now apply (par_flags _ _ HE c r tg _ (emit (EError tg (pos s) (pos s1)) s1)).
  - apply par_cancel_then; auto. intros. reflexivity.
Qed.

Lemma par_with_var id s f f' : (forall v, rr (f v) (f' (move_val d v))) ->
  rr (with_var id s f) (with_var id (ms s) f').
Proof.
  intros Hf. unfold with_var. cbn [vars move_st]. rewrite mv_vget.
  destruct (vget id (vars s)); cbn [option_map]; auto using rr_crash.
Qed.

Lemma par_p_create id v k k' s a : plain_value v -> kr k k' ->
  rr (p_create id v k s a) (p_create id v k' (ms s) (mvs a)).
Proof.
  intros Hv Hk. unfold p_create. pose proof (kr_k k k' (setvars ((id, v) :: vars s) s) a Hk) as Hr.
  assert (Hs : setvars ((id, v) :: vars (ms s)) (ms s) = ms (setvars ((id, v) :: vars s) s)).
  { unfold move_st, setvars, move_var. cbn. now rewrite mv_plain. }
  rewrite Hs, Hr. destruct (k_fn k (setvars ((id, v) :: vars s) s) a) as [o s0 m| |]; try reflexivity.
  unfold rr. cbn [move_res vars move_st]. rewrite mv_unlink, map_length. reflexivity.
Qed.

Lemma ms_vset id v s : setvars (vset id (move_val d v) (vars (ms s))) (ms s) = ms (setvars (vset id v (vars s)) s).
Proof. unfold setvars, move_st. cbn. now rewrite mv_vset. Qed.

Lemma par_push_cont id sg b k k' : kr k k' -> kr (push_cont id sg b k) (push_cont id sg (d + b) k').
Proof.
  intros Hk. apply kr_cont. intros s a. apply par_with_var. intros []; try apply rr_crash.
  apply kr_k2; auto. cbn [pos]. replace (pos (ms s) - (d + b)) with (pos s - b) by (cbn; lia).
  exact (ms_vset id (VInt _) s).
Qed.

Lemma par_capr_cont c b n k k' : okc c -> kr k k' -> kr (capr_cont E c b n k) (capr_cont E' c (d + b) n k').
Proof.
  intros Hc Hk. apply kr_cont. intros s a. cbn [pos move_st].
  assert (Ha : firstn n (mvs a) ++ VLex (d + b) (d + pos s) :: skipn n (mvs a)
               = mvs (firstn n a ++ VLex b (pos s) :: skipn n a)).
  { rewrite map_app, firstn_map. cbn. now rewrite skipn_map. }
  rewrite Ha. now apply par_ws_then.
Qed.

Lemma par_do_action c p s : okc c -> rr (do_action prods E c p s) (do_action prods E' c p (ms s)).
Proof.
  intros Hc. unfold do_action. destruct (HG p) as [Hp _].
  set (s1 := emit (EPStart p (pos s)) (emit (EGStart (pos s)) s)).
  change (emit (EPStart p (pos (ms s))) (emit (EGStart (pos (ms s))) (ms s))) with (ms s1).
  assert (Hr : rr (ws_then E c (Cont false (e_parse E c (p_rule (prods p)) final)) s1 [])
                    (ws_then E' c (Cont false (e_parse E' c (p_rule (prods p)) final)) (ms s1) [])).
  { apply (par_ws_then c _ _ s1 [] Hc). apply kr_cont. intros. apply (par_parse _ _ HE); auto using kr_final. }
  rewrite Hr. destruct (ws_then E c _ s1 []) as [[] s0 m| |]; reflexivity.
Qed.

Lemma move_snoc a v : mvs a ++ [move_val d v] = mvs (a ++ [v]).
Proof. now rewrite map_app. Qed.
Ltac sn a v := let h := fresh in pose proof (move_snoc a v) as h; cbn [move_val] in h; rewrite h; clear h.

Lemma par_parse_step c r k k' s a : okr r -> okc c -> kr k k' ->
  rr (parse_step inp prods E c r k s a) (parse_step inp' prods E' c r k' (ms s) (mvs a)).
Proof.
  intros Hr Hc Hk. destruct r; cbn [parse_step].
  - apply par_token_parse; auto. intros. now apply par_ws_then.
  - apply par_token_parse; auto. intros. now apply par_ws_then.
  - unfold p_seq. apply kr_k. apply par_seq_cont; auto. now apply inside_seq.
  - unfold p_seq. apply kr_k. apply par_seq_cont; auto. apply inside_br in Hr. constructor; apply Hr.
  - now apply kr_k.
  - apply par_p_chc; auto. now apply inside_chc.
  - apply par_branch_or; auto; [apply Hr|]. intros. now apply kr_k.
  - apply par_branch_or; auto; [apply Hr|]. intros. apply kr_k2; auto. now rewrite map_app.
  - destruct Hr as (_ & Ht & Hr). cbn [pos vars move_st]. tryp (par_try _ _ HE r1 (vars s) (pos s)).
    + sn a VNull. now apply (par_finish _ _ HE).
    + apply par_cancel_then; auto. intros. now apply (par_parse _ _ HE).
  - apply par_p_err. apply Hr.
  - apply par_branch_or; auto; [apply Hr|]. intros. apply par_p_err. apply Hr.
  - reflexivity.
  - assert (Hr1 : okr r) by apply Hr. rewrite (par_final c r s Hr1 Hc).
    destruct (e_parse E c r final s []) as [[] s0 m| |]; cbn [move_res move_out]; auto using rr_crash, rr_nofuel.
    + reflexivity.
    + now apply (par_parse _ _ HE).
    + now apply kr_k.
  - assert (Hr1 : okr r) by apply Hr. cbn [pos vars move_st]. tryp (par_try _ _ HE r (vars s) (pos s)).
    + apply rr_delim; [now apply par_ffinal|]. intros. now apply (par_parse _ _ HE).
    + apply par_cancel_then; auto. intros. now apply kr_k.
  - destruct Hr as (_ & Hi & Hs). apply rr_delim; [now apply par_final|]. intros.
    apply rr_delim; [change (@nil (list val)) with (mvss []); rewrite <- mv_push; now apply (par_lst _ _ HE)|].
    intros. unfold sink_finish. rewrite <- map_app. now apply kr_k.
  - destruct Hr as (Hl & Ht & Hi & Hs). now apply par_p_lstt.
  - apply par_p_nsep; auto. apply Hr.
  - apply par_p_find; auto. apply Hr.
  - pose proof (inside_reco _ _ _ Hr) as Hb. destruct Hr as [Hl _].
    apply (par_reco _ _ HE c limit (alts_of bs) (pos s) k k' (emit (ERStart (pos s)) s) a); auto.
    now apply ok_alts.
  - apply par_p_recw; auto. apply Hr.
  - destruct Hr as (_ & Ht & Hr & Hre). now apply par_p_try.
  - destruct Hr as (_ & Hr & Hre). apply par_p_try; auto. exact I.
  - now apply par_p_prod.
  - apply par_inc_depth. intros. apply (par_parse _ _ HE); auto using par_depth_cont; split; exact I.
  - apply par_inc_depth. intros. apply (par_parse _ _ HE); auto using par_depth_cont; split; exact I.
  - apply par_skip_ws; [apply Hr|]. intros. now apply kr_k.
  - assert (Hr1 : okr r) by apply Hr. destruct (cx_ws c).
    + apply (par_parse _ _ HE c r _ _ (setwsf false s) a); auto. now apply par_nows_cont.
    + now apply (par_parse _ _ HE).
  - assert (Hr1 : okr r) by apply Hr. cbn [pos move_st]. rewrite (par_tmatch _ _ Hr1).
    destruct (tmatch inp E r (pos s)) as [[|] e| |]; cbn [move_tres]; auto using rr_nofuel, rr_crash.
    + exact (kr_k k k' (emit (EBack (pos s) e) s) a Hk).
    + exact (kr_k k k' (emit (EBack (pos s) e) (emit (EError t (pos s) e) s)) a Hk).
  - assert (Hr1 : okr r) by apply Hr. cbn [pos move_st]. rewrite (par_tmatch _ _ Hr1).
    destruct (tmatch inp E r (pos s)) as [[|] e| |]; cbn [move_tres]; auto using rr_nofuel, rr_crash.
    + exact (kr_k k k' (setpos e (emit (ERFinish e) (emit (EToken KError (pos s) e)
                   (emit (ERStart (pos s)) (emit (EError t (pos s) e) s))))) a Hk).
    + exact (kr_k k k' (emit (EBack (pos s) e) s) a Hk).
  - cbn [pos move_st]. destruct Hr as [Hf _]. rewrite mv_search_from by exact Hf.
    destruct (search_from inp f (pos s)) as [[[|] b] e]; cbn [fst snd].
    + exact (kr_k k k' (emit (EBack (pos s) e) s) a Hk).
    + exact (kr_k k k' (emit (EBack (pos s) e) (emit (EError t (pos s) e) s)) a Hk).
  - destruct Hr as (_ & Hn & Hi & Hs). apply rr_delim; [now apply par_final|]. intros. now apply par_rep_run.
  - apply inside_comb in Hr. apply rr_delim; [apply (par_comb _ _ HE _ _ _ _ _ _ _ []); auto; now apply ok_comb|].
    intros. unfold sink_finish. rewrite <- map_app. now apply kr_k.
  - reflexivity.
  - assert (Hr1 : okr r) by apply Hr. apply rr_delim; [now apply (par_flags _ _ HE)|].
    intros. rewrite <- map_app. now apply kr_k.
  - assert (Hr1 : okr r) by apply Hr. cbn [pos vars move_st]. tryp (par_try _ _ HE r (vars s) (pos s)).
    + sn a (VInt a0). now apply (par_finish _ _ HE).
    + apply par_cancel_then; auto. intros. sn a (VInt b). now apply kr_k.
  - apply par_p_create; auto. apply Hr.
  - apply par_with_var. intros []; try apply rr_crash.
    apply kr_k2; auto. exact (ms_vset id (VInt _) s).
  - cbn [pos move_st]. apply (par_parse _ _ HE); auto; [apply Hr|]. now apply par_push_cont.
  - apply par_with_var. intros _. apply kr_k2; auto. exact (ms_vset id (VBool _) s).
  - apply par_with_var. intros []; try apply rr_crash.
    apply kr_k2; auto. exact (ms_vset id (VBool _) s).
  - now apply kr_k.
  - apply par_with_var. intros v. rewrite move_snoc. now apply kr_k.
  - apply par_with_var. intros w. cbn [vars pos move_st]. rewrite mv_all_eq.
    destruct (all_eq w ids (vars s)) as [[|]|].
    + now apply kr_k.
    + exact (kr_k k k' (emit (EError TCounts (pos s) (pos s)) s) a Hk).
    + apply rr_crash.
  - cbn [pos move_st]. apply par_token_parse; [apply Hr|]. intros e s1.
    sn a (VLex (pos s) e). apply par_ws_then; auto. apply kr_cont.
    intros s2 a2. apply par_with_var. intros _. apply kr_k2; auto. exact (ms_vset id (VLex (pos s) e) s2).
  - cbn [pos move_st]. apply par_token_parse; [apply Hr|]. intros e s1. apply par_ws_then; auto. apply kr_cont.
    intros s2 a2. apply par_with_var. intros w. rewrite mv_lex_eqb. destruct (lex_eqb inp w (pos s) e).
    + now apply kr_k.
    + exact (kr_k k k' (emit (EError tag (pos s) e) s2) a2 Hk).
  - reflexivity.
  - cbn [pos move_st]. sn a (VPos (pos s)).
    exact (kr_k k k' (emit (EToken KPosition (pos s) (pos s)) s) _ Hk).
  - cbn [pos move_st]. sn a (VPos (pos s)).
    apply (par_parse _ _ HE c r k k' (emit (EToken KPosition (pos s) (pos s)) s)); auto. apply Hr.
  - cbn [pos move_st]. apply par_token_parse; [apply Hr|]. intros e s1.
    sn a (VLex (pos s) e). now apply par_ws_then.
  - cbn [pos move_st]. rewrite map_length. apply (par_parse _ _ HE); auto; [apply Hr|]. now apply par_capr_cont.
  - cbn [pos move_st]. rewrite mv_eof. destruct (eof inp (pos s)).
    + exact (kr_k k k' (emit (EToken KEof (pos s) (pos s)) s) a Hk).
    + exact (kr_k k k' (emit (EError TEof (pos s) (pos s)) s) a Hk).
  - unfold pas_after. assert (Hr1 : okr r) by apply Hr. apply rr_delim; [now apply par_final|].
    intros s1 v. sn a (VAs v). now apply kr_k.
  - cbn [pos move_st]. apply par_token_parse; [apply Hr|]. intros e s1. apply par_ws_then; auto. apply kr_cont.
    intros s2 a2. rewrite mv_slice. destruct (f (slice inp (pos s) e)) as [z|].
    + sn a2 (VInt z). now apply kr_k.
    + reflexivity.
  - assert (Hc2 : okc (Cx (p_ws (prods p)) (cx_max c))) by (intros w Hw; now apply (HG p)).
    pose proof (par_do_action (Cx (p_ws (prods p)) (cx_max c)) p (setvars [] s) Hc2) as H.
    change (ms (setvars [] s)) with (setvars [] (ms s)) in H. rewrite H.
    destruct (do_action prods E _ p (setvars [] s)) as [[] s0 m| |]; cbn [move_res move_out]; auto using rr_crash, rr_nofuel.
    + reflexivity.
    + apply kr_k2; auto. now rewrite map_app.
Qed.

Lemma par_try_step r vs p : okr r ->
  try_step inp' prods E' r (mvar vs) (d + p) = move_bres d (try_step inp prods E r vs p).
Proof.
  intros Hr.
  assert (Ht : forall r p (f f' : bool -> nat -> bres), okr r -> (forall ok e, f' ok (d + e) = move_bres d (f ok e)) ->
    match tmatch inp' E' r (d + p) with TR ok e => f' ok e | TNoFuel => BNoFuel | TCrash => BCrash end
    = move_bres d (match tmatch inp E r p with TR ok e => f ok e | TNoFuel => BNoFuel | TCrash => BCrash end)).
  { intros r0 p0 f f' H0 Hf. rewrite (par_tmatch _ _ H0). destruct (tmatch inp E r0 p0); cbn [move_tres]; auto. }
  pose proof (par_try _ _ HE) as Hy.
  destruct r; cbn [try_step]; try reflexivity;
    try (apply Hy; apply Hr); try (apply Ht; [first [exact Hr|apply Hr]|reflexivity]).
  - apply par_t_chc. now apply inside_chc.
  - rewrite Hy by apply HG. destruct (e_try E (p_rule (prods p0)) vs p); reflexivity.
  - destruct Hr as [Hf _]. rewrite mv_search_from by exact Hf. destruct (search_from inp f p) as [[? ?] ?]. reflexivity.
  - rewrite mv_vget. destruct (vget id vs); cbn [option_map]; auto. now rewrite mv_eqb_r.
  - rewrite mv_vget. destruct (vget id vs) as [v|]; cbn [option_map]; auto. rewrite mv_all_eq.
    destruct (all_eq v ids vs); reflexivity.
  - assert (Hr1 : okr r) by apply Hr. rewrite (par_tmatch _ _ Hr1).
    destruct (tmatch inp E r p) as [[|] e| |]; cbn [move_tres]; auto.
    rewrite mv_vget. destruct (vget id vs) as [v|]; cbn [option_map]; auto. now rewrite mv_lex_eqb.
  - now rewrite mv_eof.
  - assert (Hr1 : okr r) by apply Hr. rewrite (par_tmatch _ _ Hr1).
    destruct (tmatch inp E r p) as [[|] e| |]; cbn [move_tres]; auto. now rewrite mv_slice.
Qed.

Lemma par_cancel_step r b : okr r ->
  cancel_step inp' prods E' r (mb b) = option_map (map me) (cancel_step inp prods E r b).
Proof.
  intros Hr. pose proof (par_cancel _ _ HE) as Hc.
  destruct r; cbn [cancel_step]; try reflexivity; try (apply Hc; apply Hr).
  - rewrite mb_alts. apply par_c_chc. now apply inside_chc.
  - rewrite mb_in, Hc by apply HG. destruct (e_cancel E (p_rule (prods p)) (b_in b)); cbn; auto.
    rewrite map_app, mv_b_at. reflexivity.
  - rewrite mv_b_range. reflexivity.
  - rewrite mv_b_range. reflexivity.
  - rewrite mv_b_range. reflexivity.
Qed.

Lemma par_finish_step c r b k k' s a : okr r -> okc c -> kr k k' ->
  rr (finish_step inp prods E c r b k s a) (finish_step inp' prods E' c r (mb b) k' (ms s) (mvs a)).
Proof.
  intros Hr Hc Hk. destruct r; cbn [finish_step]; try apply rr_crash; rewrite ?mv_b_end, ?mv_b_range; cbn [pos move_st fst snd].
  - now apply par_tok_finish.
  - now apply par_tok_finish.
  - apply inside_br in Hr. apply (par_finish _ _ HE); auto; [apply Hr|]. now apply par_seq_cont.
  - now apply (par_parse _ _ HE).
  - destruct b; cbn [move_bst]; try apply rr_crash. apply par_f_chc; auto. now apply inside_chc.
  - now apply (par_parse _ _ HE).
  - apply (par_finish _ _ HE); auto. apply Hr.
  - now apply (par_parse _ _ HE).
  - destruct Hr as (_ & Hi & Hs). apply rr_delim; [now apply par_ffinal|]. intros.
    apply rr_delim; [change (@nil (list val)) with (mvss []); rewrite <- mv_push; now apply (par_lst _ _ HE)|].
    intros. unfold sink_finish. rewrite <- map_app. now apply kr_k.
  - destruct Hr as (_ & Hr & Hre). apply par_try_after; auto. apply (par_finish _ _ HE); auto.
    apply par_try_cont; auto. exact I.
  - apply par_prod_after; auto. rewrite mb_in, mv_b_at.
    apply (par_ffinal _ _ _ (emit (EPStart p (b_at inp b)) s)); [apply HG|now apply okc_child].
  - apply par_inc_depth. intros. apply (par_finish _ _ HE); auto using par_depth_cont; split; exact I.
  - apply (par_finish _ _ HE c r b _ _ (setwsf false s) a); auto; [apply Hr|]. now apply par_nows_cont.
  - exact (kr_k k k' (emit (EBack (fst (b_range inp b)) (snd (b_range inp b))) s) a Hk).
  - exact (kr_k k k' (emit (EBack (fst (b_range inp b)) (snd (b_range inp b))) s) a Hk).
  - exact (kr_k k k' (emit (EBack (fst (b_range inp b)) (snd (b_range inp b))) s) a Hk).
  - destruct Hr as (_ & Hn & Hi & Hs). apply rr_delim; [now apply par_ffinal|]. intros. now apply par_rep_run.
  - apply (par_finish _ _ HE); auto; [apply Hr|]. now apply par_push_cont.
  - now apply kr_k.
  - now apply kr_k.
  - sn a (VLex (pos s) (b_end inp b)). apply par_tok_finish; auto. apply kr_cont. intros s2 a2.
    apply par_with_var. intros _. apply kr_k2; auto. exact (ms_vset id (VLex (pos s) (b_end inp b)) s2).
  - now apply par_tok_finish.
  - sn a (VPos (pos s)).
    apply (par_finish _ _ HE c r b k k' (emit (EToken KPosition (pos s) (pos s)) s)); auto. apply Hr.
  - sn a (VLex (pos s) (b_end inp b)). now apply par_tok_finish.
  - rewrite map_length. apply (par_finish _ _ HE); auto; [apply Hr|]. now apply par_capr_cont.
  - exact (kr_k k k' (emit (EToken KEof (pos s) (pos s)) s) a Hk).
  - unfold pas_after. apply rr_delim; [apply par_ffinal; auto; apply Hr|].
    intros s1 v. sn a (VAs v). now apply kr_k.
  - rewrite mv_slice. destruct (f (slice inp (pos s) (b_end inp b))) as [z|]; [|apply rr_crash].
    sn a (VInt z). now apply par_tok_finish.
Qed.

Lemma par_step : par (step inp prods E) (step inp' prods E').
Proof.
  constructor; cbn; intros.
  - now apply par_parse_step.
  - now apply par_try_step.
  - now apply par_finish_step.
  - now apply par_cancel_step.
  - now apply par_wsloop.
  - now apply par_lst_step.
  - now apply par_lstt_step.
  - now apply par_reco_step.
  - now apply par_comb_step.
  - now apply par_flags_step.
Qed.
End Step.

Lemma par_0 : par eng0 eng0.
Proof. constructor; cbn; intros; reflexivity. Qed.

Lemma par_eng n : par (eng inp prods n) (eng inp' prods n).
Proof. induction n as [|n IH]; cbn; [apply par_0|now apply par_step]. Qed.

Lemma moved_action n p :
  do_action prods (eng inp' prods n) (Cx (p_ws (prods p)) (p_max (prods p))) p (St d 0 true [] [])
    = move_res d (action inp prods n p).
Proof.
  unfold action.
  assert (Hc : okc (Cx (p_ws (prods p)) (p_max (prods p)))) by (intros w Hw; now apply (HG p)).
  pose proof (par_do_action _ _ (par_eng n) _ p (St 0 0 true [] []) Hc) as H.
  unfold rr in H. unfold move_st in H. cbn [pos depth wsf vars trace map] in H. rewrite Nat.add_0_r in H. exact H.
Qed.
End Par.
