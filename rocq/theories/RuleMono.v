(** Two facts about the engine, proved by one induction: more fuel never changes a result, and
    the events emitted so far never influence a parser.  The second is stated by running a parser
    with additional old events [t] in the trace. *)
From Verif Require Import Prelude RuleModel.
Close Scope N_scope.

Definition addt (t : list event) (s : st) : st :=
  St (pos s) (depth s) (wsf s) (vars s) (trace s ++ t).
Definition addr (t : list event) (r : res) : res :=
  match r with Res o s m => Res o (addt t s) m | NoFuel => NoFuel | Crash => Crash end.

Lemma addt_nil s : addt [] s = s.
Proof. destruct s. unfold addt. cbn. now rewrite app_nil_r. Qed.
Lemma addr_nil r : addr [] r = r.
Proof. destruct r; cbn; auto. now rewrite addt_nil. Qed.

Lemma emits_addt es t s : emits es (addt t s) = addt t (emits es s).
Proof. unfold emits, addt. cbn. now rewrite app_assoc. Qed.

Section Par.
Variable inp : list N.
Variable prods : nat -> production.
(** [lax]: the left engine may have run out of fuel. *)
Variable lax : bool.

Definition le {A} (bot x x' : A) : Prop := x = x' \/ (lax = true /\ x = bot).

Definition rr (t : list event) (r r' : res) : Prop := le NoFuel (addr t r) r'.
Definition kr (t : list event) (k k' : cont) : Prop :=
  k_nows k = k_nows k' /\ forall s a, rr t (k_fn k s a) (k_fn k' (addt t s) a).

Record par (E E' : engine) : Prop := {
  par_parse : forall t c r k k' s a, kr t k k' ->
    rr t (e_parse E c r k s a) (e_parse E' c r k' (addt t s) a);
  par_try : forall r vs p, le BNoFuel (e_try E r vs p) (e_try E' r vs p);
  par_finish : forall t c r b k k' s a, kr t k k' ->
    rr t (e_finish E c r b k s a) (e_finish E' c r b k' (addt t s) a);
  par_cancel : forall r b, le None (e_cancel E r b) (e_cancel E' r b);
  par_ws : forall w p, le TNoFuel (e_wsloop E w p) (e_wsloop E' w p);
  par_lst : forall t c i sep s acc,
    rr t (e_lst E c i sep s acc) (e_lst E' c i sep (addt t s) acc);
  par_lstt : forall t c te i sep lim ls sp s acc,
    rr t (e_lstt E c te i sep lim ls sp s acc) (e_lstt E' c te i sep lim ls sp (addt t s) acc);
  par_reco : forall t c lim al b k k' s a, kr t k k' ->
    rr t (e_reco E c lim al b k s a) (e_reco E' c lim al b k' (addt t s) a);
  par_comb : forall t c d al n cnt h s acc,
    rr t (e_comb E c d al n cnt h s acc) (e_comb E' c d al n cnt h (addt t s) acc);
  par_flags : forall t c r tg z s,
    rr t (e_flags E c r tg z s) (e_flags E' c r tg z (addt t s))
}.

Lemma le_refl {A} (b x : A) : le b x x.
Proof. now left. Qed.

Lemma rr_res t o s m : rr t (Res o s m) (Res o (addt t s) m).
Proof. now left. Qed.
Lemma rr_crash t : rr t Crash Crash.
Proof. now left. Qed.
Lemma rr_nofuel t : rr t NoFuel NoFuel.
Proof. now left. Qed.
Lemma rr_lax t r : lax = true -> rr t NoFuel r.
Proof. intros. right. auto. Qed.

Lemma kr_k t k k' s a : kr t k k' -> rr t (k_fn k s a) (k_fn k' (addt t s) a).
Proof. intros [_ H]. apply H. Qed.

Lemma kr_final t : kr t final final.
Proof. split; [reflexivity|]. intros s a. cbn. apply rr_res. Qed.

Lemma kr_cont t b f f' : (forall s a, rr t (f s a) (f' (addt t s) a)) -> kr t (Cont b f) (Cont b f').
Proof. intros H. split; auto. Qed.

Lemma rr_inv t r r' : rr t r r' ->
  (lax = true /\ r = NoFuel) \/ (r = NoFuel /\ r' = NoFuel) \/ (r = Crash /\ r' = Crash) \/
  exists o s m, r = Res o s m /\ r' = Res o (addt t s) m.
Proof.
  intros [H|[H1 H2]].
  - subst r'. destruct r; cbn; eauto 9.
  - destruct r; try discriminate. auto.
Qed.

Lemma rr_delim t r r' f f' : rr t r r' -> (forall s v, rr t (f s v) (f' (addt t s) v)) ->
  rr t (delim r f) (delim r' f').
Proof.
  intros H Hf. apply rr_inv in H. destruct H as [[H ->]|[[-> ->]|[[-> ->]|(o & s & m & -> & ->)]]]; cbn.
  - now apply rr_lax.
  - apply rr_nofuel.
  - apply rr_crash.
  - destruct o; auto using rr_res, rr_crash.
Qed.

Lemma rr_orelse t r r' f f' g g' : rr t r r' -> (forall s v, rr t (f s v) (f' (addt t s) v)) ->
  (forall s, rr t (g s) (g' (addt t s))) -> rr t (orelse r f g) (orelse r' f' g').
Proof.
  intros H Hf Hg. apply rr_inv in H. destruct H as [[H ->]|[[-> ->]|[[-> ->]|(o & s & m & -> & ->)]]]; cbn.
  - now apply rr_lax.
  - apply rr_nofuel.
  - apply rr_crash.
  - destruct o; auto using rr_res, rr_crash.
Qed.

Lemma rr_mark t r r' : rr t r r' -> rr t (mark r) (mark r').
Proof.
  intros H. apply rr_inv in H. destruct H as [[H ->]|[[-> ->]|[[-> ->]|(o & s & m & -> & ->)]]]; cbn.
  - now apply rr_lax.
  - apply rr_nofuel.
  - apply rr_crash.
  - apply rr_res.
Qed.

Section Step.
Variables E E' : engine.
Hypothesis HE : par E E'.

Ltac rri H := apply rr_inv in H;
  destruct H as [[? ->]|[[-> ->]|[[-> ->]|(?o & ?s & ?m & -> & ->)]]];
  [now apply rr_lax|apply rr_nofuel|apply rr_crash|].

(** For results of try_parse, cancel and token matching. *)
Ltac lei H := destruct H as [->|[? ->]]; [|now apply rr_lax].

Lemma par_final t c r s : rr t (e_parse E c r final s []) (e_parse E' c r final (addt t s) []).
Proof. apply (par_parse _ _ HE). apply kr_final. Qed.
Lemma par_ffinal t c r b s : rr t (e_finish E c r b final s []) (e_finish E' c r b final (addt t s) []).
Proof. apply (par_finish _ _ HE). apply kr_final. Qed.

Lemma par_sub c r p : le NoFuel (e_parse E c r final (sub_st p) []) (e_parse E' c r final (sub_st p) []).
Proof.
  pose proof (par_final [] c r (sub_st p)) as H. unfold rr in H. now rewrite addr_nil, addt_nil in H.
Qed.

Lemma par_run_token r p : le TNoFuel (run_token E r p) (run_token E' r p).
Proof.
  unfold run_token. destruct (par_sub sub_cx r p) as [->|[? ->]]; [apply le_refl|]. right. auto.
Qed.

Lemma par_tmatch r p : le TNoFuel (tmatch inp E r p) (tmatch inp E' r p).
Proof. destruct r; cbn [tmatch]; try apply par_run_token. apply le_refl. Qed.

Lemma par_token_parse t r s f f' : (forall e s, rr t (f e s) (f' e (addt t s))) ->
  rr t (token_parse inp E r s f) (token_parse inp E' r (addt t s) f').
Proof.
  intros Hf. unfold token_parse. cbn [pos addt].
  lei (par_tmatch r (pos s)). destruct (tmatch inp E' r (pos s)) as [[|] e| |].
  - apply (Hf e (setpos e (emit (EToken (tkind_of r) (pos s) e) s))).
  - apply (rr_res t OFalse (setpos e (emit (terror inp r (pos s) e) (emit (EToken KError (pos s) e) s)))).
  - apply rr_nofuel.
  - apply rr_crash.
Qed.

Lemma par_wsloop w p : le TNoFuel (wsloop_step inp E w p) (wsloop_step inp E' w p).
Proof.
  unfold wsloop_step. destruct (par_tmatch w p) as [->|[? ->]]; [|right; auto].
  destruct (tmatch inp E' w p) as [[|] e| |]; try apply le_refl. apply (par_ws _ _ HE).
Qed.

Lemma par_skip_ws t w s f f' : (forall s, rr t (f s) (f' (addt t s))) ->
  rr t (skip_ws E w s f) (skip_ws E' w (addt t s) f').
Proof.
  intros Hf. unfold skip_ws. cbn [pos addt]. destruct (token_rule (strip_ws w)).
  - lei (par_ws _ _ HE (strip_ws w) (pos s)).
    destruct (e_wsloop E' (strip_ws w) (pos s)) as [b e| |]; auto using rr_nofuel, rr_crash.
    apply (Hf (setpos e (emit (EToken KWhitespace (pos s) e) s))).
  - lei (par_sub sub_cx (RLoop (chc_or (strip_ws w) RBreak)) (pos s)).
    destruct (e_parse E' sub_cx _ final (sub_st (pos s)) []) as [[] x m| |];
      auto using rr_nofuel, rr_crash; rewrite emits_addt.
    + apply (rr_res t OFalse (setpos (pos x) (emit (EToken KError (pos s) (pos x)) (emits (rev (filter is_err (trace x))) s)))).
    + apply (Hf (setpos (pos x) (emit (EToken KWhitespace (pos s) (pos x)) (emits (rev (filter is_err (trace x))) s)))).
Qed.

Lemma par_ws_then t c k k' s a : kr t k k' -> rr t (ws_then E c k s a) (ws_then E' c k' (addt t s) a).
Proof.
  intros Hk. unfold ws_then. destruct (cx_ws c) as [w|]; [|now apply kr_k].
  rewrite (proj1 Hk). cbn [wsf addt]. destruct (k_nows k' || negb (wsf s)); [now apply kr_k|].
  apply par_skip_ws. intros. now apply kr_k.
Qed.

Lemma par_tok_finish t c kd e k k' s a : kr t k k' ->
  rr t (tok_finish E c kd e k s a) (tok_finish E' c kd e k' (addt t s) a).
Proof.
  intros Hk. unfold tok_finish.
  apply (par_ws_then t c k k' (setpos e (emit (EToken kd (pos s) e) s)) a Hk).
Qed.

Lemma par_cancel_then t r b s f f' : (forall s, rr t (f s) (f' (addt t s))) ->
  rr t (cancel_then E r b s f) (cancel_then E' r b (addt t s) f').
Proof.
  intros Hf. unfold cancel_then. lei (par_cancel _ _ HE r b).
  destruct (e_cancel E' r b); [|apply rr_nofuel]. rewrite emits_addt. apply Hf.
Qed.

Lemma par_branch_or t c r k k' s a f f' : kr t k k' -> (forall s, rr t (f s) (f' (addt t s))) ->
  rr t (branch_or E c r k s a f) (branch_or E' c r k' (addt t s) a f').
Proof.
  intros Hk Hf. unfold branch_or. cbn [pos vars addt]. lei (par_try _ _ HE r (vars s) (pos s)).
  destruct (e_try E' r (vars s) (pos s)) as [[|] b| |]; auto using rr_nofuel, rr_crash.
  - now apply (par_finish _ _ HE).
  - now apply par_cancel_then.
Qed.

Lemma par_seq_cont t c rs k k' : kr t k k' -> kr t (seq_cont E c rs k) (seq_cont E' c rs k').
Proof.
  intros Hk. induction rs as [|r rs IH]; cbn [seq_cont]; auto. split; cbn [k_nows k_fn].
  - now rewrite (proj1 IH).
  - intros. now apply (par_parse _ _ HE).
Qed.

Lemma par_p_chc t c u rs k k' a : kr t k k' -> forall s,
  rr t (p_chc E c u rs k s a) (p_chc E' c u rs k' (addt t s) a).
Proof.
  intros Hk. induction rs as [|r rs IH]; intros s; cbn [p_chc].
  - destruct u; [apply rr_crash|].
    apply (rr_res t OFalse (emit (EError TExhausted (pos s) (pos s)) s)).
  - apply par_branch_or; auto.
Qed.

Lemma par_t_chc rs : forall i vs p, le BNoFuel (t_chc E rs i vs p) (t_chc E' rs i vs p).
Proof.
  induction rs as [|r rs IH]; intros i vs p; cbn [t_chc]; [apply le_refl|].
  destruct (par_try _ _ HE r vs p) as [->|[? ->]]; [|right; auto].
  destruct (e_try E' r vs p) as [[|] b| |]; try apply le_refl.
  destruct (IH (S i) vs p) as [->|[? ->]]; [|right; auto]. apply le_refl.
Qed.

Lemma par_c_chc rs : forall bs, le None (c_chc E rs bs) (c_chc E' rs bs).
Proof.
  induction rs as [|r rs IH]; intros bs; cbn [c_chc]; [apply le_refl|].
  destruct (par_cancel _ _ HE r (hd BNone bs)) as [->|[? ->]]; [|right; auto].
  destruct (IH (tl bs)) as [->|[? ->]]; [apply le_refl|right; split; auto].
  destruct (e_cancel E' r (hd BNone bs)); auto.
Qed.

Lemma par_f_chc t c rs k k' a : kr t k k' -> forall i bs s,
  rr t (f_chc E c rs i bs k s a) (f_chc E' c rs i bs k' (addt t s) a).
Proof.
  intros Hk. induction rs as [|r rs IH]; intros [|i] bs s; cbn [f_chc]; try apply rr_crash.
  - now apply (par_finish _ _ HE).
  - apply par_cancel_then. auto.
Qed.

Lemma par_p_err t tg r s : rr t (p_err E tg r s) (p_err E' tg r (addt t s)).
Proof.
  unfold p_err. destruct r as [r|].
  - cbn [pos addt]. lei (par_run_token r (pos s)).
    destruct (run_token E' r (pos s)) as [b e| |]; auto using rr_nofuel, rr_crash.
    apply (rr_res t OFalse (emit (EError tg (pos s) e) s)).
  - apply (rr_res t OFalse (emit (EError tg (pos s) (pos s)) s)).
Qed.

Lemma report_addt k b e t s : report_trailing k b e (addt t s) = addt t (report_trailing k b e s).
Proof. destruct k; reflexivity. Qed.

Lemma par_lst_item t c i sep sb s acc :
  rr t (lst_item prods E c i sep sb s acc) (lst_item prods E' c i sep sb (addt t s) acc).
Proof.
  unfold lst_item. cbn [pos vars addt]. destruct (is_branch prods i).
  - lei (par_try _ _ HE i (vars s) (pos s)).
    destruct (e_try E' i (vars s) (pos s)) as [[|] b| |]; auto using rr_nofuel, rr_crash.
    + apply rr_delim; [apply par_ffinal|]. intros. apply (par_lst _ _ HE).
    + apply par_cancel_then. intros s1. destruct sep as [[? k]|]; [rewrite report_addt|]; apply rr_res.
  - apply rr_delim; [apply par_final|]. intros. apply (par_lst _ _ HE).
Qed.

Lemma par_lst_step t c i sep s acc :
  rr t (lst_step prods E c i sep s acc) (lst_step prods E' c i sep (addt t s) acc).
Proof.
  unfold lst_step. cbn [pos vars addt]. destruct sep as [[sr k]|]; [|apply par_lst_item].
  lei (par_try _ _ HE sr (vars s) (pos s)).
  destruct (e_try E' sr (vars s) (pos s)) as [[|] b| |]; auto using rr_nofuel, rr_crash.
  - apply rr_delim; [apply par_ffinal|]. intros. apply par_lst_item.
  - apply par_cancel_then. intros. apply rr_res.
Qed.

Lemma par_lstt_limit t c te i sep lim b sp s acc :
  rr t (lstt_limit inp E c te i sep lim b sp s acc) (lstt_limit inp E' c te i sep lim b sp (addt t s) acc).
Proof.
  unfold lstt_limit. cbn [pos vars addt].
  lei (par_try _ _ HE te (vars s) (pos s)).
  destruct (e_try E' te (vars s) (pos s)) as [[|] tb| |]; auto using rr_nofuel, rr_crash.
  - apply (rr_res t (OTrue [VSink acc]) (lstt_recovered b s)).
  - apply par_cancel_then. intros s1. cbn [pos addt].
    destruct (fst (tk_try lim inp (pos s1)) || eof inp (pos s1)).
    + apply (rr_res t OFalse (emit (ERCancel (pos s1)) (emit (EToken KError b (pos s1)) s1))).
    + apply (par_lstt _ _ HE t c te i sep lim (LSearch b) sp (setpos (S (pos s1)) s1) acc).
Qed.

Lemma par_lstt_step t c te i sep lim ls sp s acc :
  rr t (lstt_step inp prods E c te i sep lim ls sp s acc)
       (lstt_step inp prods E' c te i sep lim ls sp (addt t s) acc).
Proof.
  unfold lstt_step. pose proof (par_lstt _ _ HE t c te i sep lim) as Hgo.
  cbn [pos vars addt]. destruct ls.
  - lei (par_try _ _ HE te (vars s) (pos s)).
    destruct (e_try E' te (vars s) (pos s)) as [[|] tb| |]; auto using rr_nofuel, rr_crash, rr_res.
    apply par_cancel_then. auto.
  - destruct sep as [[sr k]|]; auto.
    apply rr_orelse; [apply par_final|auto|]. intros s1. cbn [pos vars addt].
    destruct (pos s =? pos s1); auto. destruct (is_branch prods i); auto.
    lei (par_try _ _ HE i (vars s1) (pos s1)).
    destruct (e_try E' i (vars s1) (pos s1)) as [[|] tb| |]; auto using rr_nofuel, rr_crash, rr_res.
    + apply rr_orelse; [apply par_ffinal|auto|]. intros. apply par_cancel_then. auto.
    + apply par_cancel_then. auto.
  - destruct sep as [[sr k]|]; auto using rr_crash.
    lei (par_try _ _ HE te (vars s) (pos s)).
    destruct (e_try E' te (vars s) (pos s)) as [[|] tb| |]; auto using rr_nofuel, rr_crash, rr_res.
    rewrite report_addt. apply rr_res.
  - apply rr_orelse; [apply par_final|auto|auto].
  - apply (Hgo (LSearch (pos s)) sp (emit (ERStart (pos s)) s)).
  - destruct sep as [[sr k]|].
    + lei (par_try _ _ HE sr (vars s) (pos s)).
      destruct (e_try E' sr (vars s) (pos s)) as [[|] sb| |]; auto using rr_nofuel, rr_crash, rr_res.
      * apply rr_orelse; [apply (par_ffinal t c sr sb (lstt_recovered b s))|auto|auto].
      * apply par_cancel_then. intros. apply par_lstt_limit.
    + destruct (is_branch prods i); [|apply par_lstt_limit].
      lei (par_try _ _ HE i (vars s) (pos s)).
      destruct (e_try E' i (vars s) (pos s)) as [[|] ib| |]; auto using rr_nofuel, rr_crash, rr_res.
      * apply rr_orelse; [apply (par_ffinal t c i ib (lstt_recovered b s))|auto|auto].
      * apply par_cancel_then. intros. apply par_lstt_limit.
Qed.

Lemma par_p_lstt t c te i sep lim k k' s a : kr t k k' ->
  rr t (p_lstt E c te i sep lim k s a) (p_lstt E' c te i sep lim k' (addt t s) a).
Proof.
  intros Hk. unfold p_lstt.
  apply rr_orelse; [apply par_final|..]; intros; (apply rr_delim; [apply (par_lstt _ _ HE)|]);
    intros s2 v2; cbn [pos vars addt]; lei (par_try _ _ HE te (vars s2) (pos s2));
    destruct (e_try E' te (vars s2) (pos s2)) as [[|] tb| |]; auto using rr_nofuel, rr_crash;
    now apply (par_finish _ _ HE).
Qed.

Lemma par_p_nsep t c b tg k k' s a : kr t k k' ->
  rr t (p_nsep E c b tg k s a) (p_nsep E' c b tg k' (addt t s) a).
Proof.
  intros Hk. unfold p_nsep. apply par_branch_or.
  - apply kr_cont. intros s1 a1. apply (kr_k t k k' (emit (EError tg (pos s) (pos s1)) s1) a1 Hk).
  - intros. now apply kr_k.
Qed.

Lemma par_p_find t f k k' s a : kr t k k' ->
  rr t (p_find inp f k s a) (p_find inp f k' (addt t s) a).
Proof.
  intros Hk. unfold p_find. cbn [pos addt]. destruct (search_from inp f (pos s)) as [[[|] b] e].
  - apply (kr_k t k k' (setpos b (emit (ERFinish b) (emit (EToken KError (pos s) b) (emit (ERStart (pos s)) s)))) a Hk).
  - apply (rr_res t OFalse (setpos b (emit (ERCancel b) (emit (EToken KError (pos s) b) (emit (ERStart (pos s)) s))))).
Qed.

Lemma par_reco_step t c lim al b k k' s a : kr t k k' ->
  rr t (reco_step inp E c lim al b k s a) (reco_step inp E' c lim al b k' (addt t s) a).
Proof.
  intros Hk. unfold reco_step. cbn [pos vars addt]. lei (par_try _ _ HE al (vars s) (pos s)).
  destruct (e_try E' al (vars s) (pos s)) as [[|] bs| |]; auto using rr_nofuel, rr_crash.
  - apply (par_finish _ _ HE t c al bs k k' (emit (ERFinish (pos s)) (emit (EToken KError b (pos s)) s)) a Hk).
  - apply par_cancel_then. intros s1. cbn [pos addt].
    destruct (fst (tk_try lim inp (pos s1)) || eof inp (pos s1)).
    + apply (rr_res t OFalse (emit (ERCancel (pos s1)) (emit (EToken KError b (pos s1)) s1))).
    + apply (par_reco _ _ HE t c lim al b k k' (setpos (S (pos s1)) s1) a Hk).
Qed.

Lemma par_p_recw t c r k k' s a : kr t k k' ->
  rr t (p_recw E c r k s a) (p_recw E' c r k' (addt t s) a).
Proof.
  intros Hk. unfold p_recw.
  set (K := Cont false (fun s a => mark (k_fn k (emit (ERFinish (pos s)) s) a))).
  set (K' := Cont false (fun s a => mark (k_fn k' (emit (ERFinish (pos s)) s) a))).
  assert (HK : kr t K K').
  { apply kr_cont. intros s1 a1. apply rr_mark. apply (kr_k t k k' (emit (ERFinish (pos s1)) s1) a1 Hk). }
  set (W := Cont false (fun s a => ws_then E c K s a)).
  set (W' := Cont false (fun s a => ws_then E' c K' s a)).
  assert (HW : kr t W W').
  { apply kr_cont. intros. now apply par_ws_then. }
  assert (Hr : rr t (match r with None => k_fn W (emit (ERStart (pos s)) s) a
                                | Some r => e_parse E c r W (emit (ERStart (pos s)) s) a end)
                    (match r with None => k_fn W' (emit (ERStart (pos s)) (addt t s)) a
                                | Some r => e_parse E' c r W' (emit (ERStart (pos s)) (addt t s)) a end)).
  { destruct r.
    - apply (par_parse _ _ HE t c r W W' (emit (ERStart (pos s)) s) a HW).
    - apply (kr_k t W W' (emit (ERStart (pos s)) s) a HW). }
  cbn [pos addt] in *. rri Hr. destruct m as [|m]; [|apply rr_res].
  apply (rr_res t o (emit (ERCancel (pos s0)) s0)).
Qed.

Lemma par_try_recover t c rec k k' s a : kr t k k' ->
  rr t (try_recover E c rec k s a) (try_recover E' c rec k' (addt t s) a).
Proof.
  intros Hk. unfold try_recover. destruct rec as [[]|]; now apply (par_parse _ _ HE).
Qed.

Lemma par_try_after t c rec k k' a r r' : kr t k k' -> rr t r r' ->
  rr t (try_after E c rec k a r) (try_after E' c rec k' a r').
Proof.
  intros Hk Hr. unfold try_after. rri Hr. destruct m as [|m].
  - destruct o; auto using rr_crash. now apply par_try_recover.
  - destruct o; apply rr_res.
Qed.

Lemma par_try_cont t c te k k' : kr t k k' -> kr t (try_cont E c te k) (try_cont E' c te k').
Proof.
  intros Hk. apply kr_cont. intros. apply rr_mark. destruct te; [now apply (par_parse _ _ HE)|now apply kr_k].
Qed.

Lemma par_p_try t c te r rec k k' s a : kr t k k' ->
  rr t (p_try E c te r rec k s a) (p_try E' c te r rec k' (addt t s) a).
Proof.
  intros Hk. unfold p_try. apply par_try_after; auto. apply (par_parse _ _ HE). now apply par_try_cont.
Qed.

Lemma par_prod_after t c p k k' a r r' : kr t k k' -> rr t r r' ->
  rr t (prod_after prods E c p k a r) (prod_after prods E' c p k' a r').
Proof.
  intros Hk Hr. unfold prod_after. rri Hr. destruct o; auto using rr_crash.
  - apply (rr_res t OFalse (emit (EPCancel p (pos s)) s)).
  - unfold prod_finish. destruct (p_token (prods p)).
    + apply (par_ws_then t c k k' (emit (EPFinish p (pos s)) s) _ Hk).
    + apply (kr_k t k k' (emit (EPFinish p (pos s)) s) _ Hk).
Qed.

Lemma par_p_prod t c p k k' s a : kr t k k' ->
  rr t (p_prod prods E c p k s a) (p_prod prods E' c p k' (addt t s) a).
Proof.
  intros Hk. unfold p_prod. destruct (p_ws (prods p)); apply par_prod_after; auto.
  - apply (par_ws_then t _ _ _ (emit (EPStart p (pos s)) s) []).
    apply kr_cont. intros. apply par_final.
  - apply (par_final t _ _ (emit (EPStart p (pos s)) s)).
Qed.

Lemma par_depth_cont t k k' : kr t k k' -> kr t (depth_cont k) (depth_cont k').
Proof.
  intros Hk. apply kr_cont. intros s a. apply (kr_k t k k' (setdepth (pred (depth s)) s) a Hk).
Qed.

Lemma par_inc_depth t c tg s f f' : (forall s, rr t (f s) (f' (addt t s))) ->
  rr t (inc_depth c tg s f) (inc_depth c tg (addt t s) f').
Proof.
  intros Hf. unfold inc_depth. cbn [depth addt]. destruct (cx_max c =? 0); [apply rr_crash|].
  destruct (cx_max c <=? depth s).
  - apply (rr_res t OFalse (emit (EError tg (pos s) (pos s)) s)).
  - apply (Hf (setdepth (S (depth s)) s)).
Qed.

Lemma par_nows_cont t c k k' : kr t k k' -> kr t (nows_cont E c k) (nows_cont E' c k').
Proof.
  intros Hk. apply kr_cont. intros s a. apply (par_ws_then t c k k' (setwsf true s) a Hk).
Qed.

Lemma par_rep_more t c i sep n : forall s acc,
  rr t (rep_more E c i sep n s acc) (rep_more E' c i sep n (addt t s) acc).
Proof.
  induction n as [|n IH]; intros s acc; cbn [rep_more].
  - destruct sep as [sp|]; [|apply rr_res]. apply rr_delim; [apply par_final|]. intros. apply rr_res.
  - destruct sep as [[sr k]|].
    + apply rr_delim; [apply par_final|]. intros. apply rr_delim; [apply par_final|auto].
    + apply rr_delim; [apply par_final|auto].
Qed.

Lemma par_rep_run t c m i sep k k' a s vs : kr t k k' ->
  rr t (rep_run E c m i sep k a s vs) (rep_run E' c m i sep k' a (addt t s) vs).
Proof.
  intros Hk. unfold rep_run. destruct (count_of vs) as [n|]; [|apply rr_crash].
  apply rr_delim.
  - unfold rep_loop. destruct n; [apply rr_res|].
    apply rr_delim; [apply par_final|]. intros. apply par_rep_more.
  - intros s1 v. cbn [pos addt]. now apply kr_k.
Qed.

Lemma par_comb_step t c d al n cnt h s acc :
  rr t (comb_step E c d al n cnt h s acc) (comb_step E' c d al n cnt h (addt t s) acc).
Proof.
  unfold comb_step. destruct (n <=? cnt); [apply rr_res|].
  pose proof (par_final t c al s) as Hr. cbn [pos addt]. rri Hr. destruct o; auto using rr_res, rr_crash.
  destruct (nth i h false); [|apply (par_comb _ _ HE)].
  apply (par_comb _ _ HE t c d al n cnt h (emit (EError d (pos s) (pos s0)) s0)).
Qed.

Lemma par_flags_step t c r tg z s :
  rr t (flags_step E c r tg z s) (flags_step E' c r tg z (addt t s)).
Proof.
  unfold flags_step. cbn [pos vars addt]. lei (par_try _ _ HE r (vars s) (pos s)).
  destruct (e_try E' r (vars s) (pos s)) as [[|] b| |]; auto using rr_nofuel, rr_crash.
  - apply rr_delim; [apply par_ffinal|]. intros s1 vs. cbn [pos addt].
    destruct vs as [|[] [|]]; auto using rr_crash.
    destruct (Z.eqb (Z.land z z0) z0); [|apply (par_flags _ _ HE)].
    apply (par_flags _ _ HE t c r tg _ (emit (EError tg (pos s) (pos s1)) s1)).
  - apply par_cancel_then. intros. apply rr_res.
Qed.

Lemma par_with_var t id s f f' : (forall v, rr t (f v) (f' v)) ->
  rr t (with_var id s f) (with_var id (addt t s) f').
Proof.
  intros Hf. unfold with_var. cbn [vars addt]. destruct (vget id (vars s)); auto using rr_crash.
Qed.

Lemma par_p_create t id v k k' s a : kr t k k' ->
  rr t (p_create id v k s a) (p_create id v k' (addt t s) a).
Proof.
  intros Hk. unfold p_create. pose proof (kr_k t k k' (setvars ((id, v) :: vars s) s) a Hk) as Hr.
  change (setvars ((id, v) :: vars (addt t s)) (addt t s)) with (addt t (setvars ((id, v) :: vars s) s)).
  rri Hr. apply (rr_res t o (unlink (length (vars s)) s0)).
Qed.

Lemma par_push_cont t id sg b k k' : kr t k k' -> kr t (push_cont id sg b k) (push_cont id sg b k').
Proof.
  intros Hk. apply kr_cont. intros s a. apply par_with_var. intros []; try apply rr_crash.
  cbn [pos addt].
  apply (kr_k t k k' (setvars (vset id (VInt (z + Z.of_nat (pos s - b) * sg)) (vars s)) s) a Hk).
Qed.

Lemma par_capr_cont t c b n k k' : kr t k k' -> kr t (capr_cont E c b n k) (capr_cont E' c b n k').
Proof. intros Hk. apply kr_cont. intros. cbn [pos addt]. now apply par_ws_then. Qed.

Lemma par_do_action t c p s : rr t (do_action prods E c p s) (do_action prods E' c p (addt t s)).
Proof.
  unfold do_action.
  set (s1 := emit (EPStart p (pos s)) (emit (EGStart (pos s)) s)).
  assert (Hr : rr t (ws_then E c (Cont false (e_parse E c (p_rule (prods p)) final)) s1 [])
                    (ws_then E' c (Cont false (e_parse E' c (p_rule (prods p)) final)) (addt t s1) [])).
  { apply par_ws_then. apply kr_cont. intros. apply (par_parse _ _ HE). apply kr_final. }
  change (emit (EPStart p (pos (addt t s))) (emit (EGStart (pos (addt t s))) (addt t s))) with (addt t s1).
  rri Hr. destruct o; auto using rr_crash.
  - apply (rr_res t OFalse (emit (EGCancel (pos s0)) (emit (EPCancel p (pos s0)) s0))).
  - apply (rr_res t (OTrue vs) (emit (EGFinish (pos s0)) (emit (EPFinish p (pos s0)) s0))).
Qed.

Lemma par_parse_step t c r k k' s a : kr t k k' ->
  rr t (parse_step inp prods E c r k s a) (parse_step inp prods E' c r k' (addt t s) a).
Proof.
  intros Hk. destruct r; cbn [parse_step].
  - apply par_token_parse. intros. now apply par_ws_then.
  - apply par_token_parse. intros. now apply par_ws_then.
  - unfold p_seq. apply kr_k. now apply par_seq_cont.
  - unfold p_seq. apply kr_k. now apply par_seq_cont.
  - now apply kr_k.
  - now apply par_p_chc.
  - apply par_branch_or; auto. intros. now apply kr_k.
  - apply par_branch_or; auto. intros. now apply kr_k.
  - cbn [pos vars addt]. lei (par_try _ _ HE r1 (vars s) (pos s)).
    destruct (e_try E' r1 (vars s) (pos s)) as [[|] b| |]; auto using rr_nofuel, rr_crash.
    + now apply (par_finish _ _ HE).
    + apply par_cancel_then. intros. now apply (par_parse _ _ HE).
  - apply par_p_err.
  - apply par_branch_or; auto. intros. apply par_p_err.
  - apply rr_res.
  - pose proof (par_final t c r s) as Hr. rri Hr. destruct o; auto using rr_res, rr_crash.
    + now apply (par_parse _ _ HE).
    + now apply kr_k.
  - cbn [pos vars addt]. lei (par_try _ _ HE r (vars s) (pos s)).
    destruct (e_try E' r (vars s) (pos s)) as [[|] b| |]; auto using rr_nofuel, rr_crash.
    + apply rr_delim; [apply par_ffinal|]. intros. now apply (par_parse _ _ HE).
    + apply par_cancel_then. intros. now apply kr_k.
  - apply rr_delim; [apply par_final|]. intros. apply rr_delim; [apply (par_lst _ _ HE)|].
    intros. now apply kr_k.
  - now apply par_p_lstt.
  - now apply par_p_nsep.
  - now apply par_p_find.
  - apply (par_reco _ _ HE t c limit (alts_of bs) (pos s) k k' (emit (ERStart (pos s)) s) a Hk).
  - now apply par_p_recw.
  - now apply par_p_try.
  - now apply par_p_try.
  - now apply par_p_prod.
  - apply par_inc_depth. intros. apply (par_parse _ _ HE). now apply par_depth_cont.
  - apply par_inc_depth. intros. apply (par_parse _ _ HE). now apply par_depth_cont.
  - apply par_skip_ws. intros. now apply kr_k.
  - destruct (cx_ws c).
    + apply (par_parse _ _ HE t c r _ _ (setwsf false s) a). now apply par_nows_cont.
    + now apply (par_parse _ _ HE).
  - cbn [pos addt]. lei (par_tmatch r (pos s)).
    destruct (tmatch inp E' r (pos s)) as [[|] e| |]; auto using rr_nofuel, rr_crash.
    + apply (kr_k t k k' (emit (EBack (pos s) e) s) a Hk).
    + apply (kr_k t k k' (emit (EBack (pos s) e) (emit (EError t0 (pos s) e) s)) a Hk).
  - cbn [pos addt]. lei (par_tmatch r (pos s)).
    destruct (tmatch inp E' r (pos s)) as [[|] e| |]; auto using rr_nofuel, rr_crash.
    + apply (kr_k t k k' (setpos e (emit (ERFinish e) (emit (EToken KError (pos s) e)
                   (emit (ERStart (pos s)) (emit (EError t0 (pos s) e) s))))) a Hk).
    + apply (kr_k t k k' (emit (EBack (pos s) e) s) a Hk).
  - cbn [pos addt]. destruct (search_from inp f (pos s)) as [[[|] b] e].
    + apply (kr_k t k k' (emit (EBack (pos s) e) s) a Hk).
    + apply (kr_k t k k' (emit (EBack (pos s) e) (emit (EError t0 (pos s) e) s)) a Hk).
  - apply rr_delim; [apply par_final|]. intros. now apply par_rep_run.
  - apply rr_delim; [apply (par_comb _ _ HE)|]. intros. now apply kr_k.
  - apply rr_res.
  - apply rr_delim; [apply (par_flags _ _ HE)|]. intros. now apply kr_k.
  - cbn [pos vars addt]. lei (par_try _ _ HE r (vars s) (pos s)).
    destruct (e_try E' r (vars s) (pos s)) as [[|] bs| |]; auto using rr_nofuel, rr_crash.
    + now apply (par_finish _ _ HE).
    + apply par_cancel_then. intros. now apply kr_k.
  - now apply par_p_create.
  - apply par_with_var. intros []; try apply rr_crash. cbn [vars addt].
    apply (kr_k t k k' (setvars (vset id (VInt (z0 + z)) (vars s)) s) a Hk).
  - cbn [pos addt]. apply (par_parse _ _ HE). now apply par_push_cont.
  - apply par_with_var. intros _. cbn [vars addt].
    apply (kr_k t k k' (setvars (vset id (VBool b) (vars s)) s) a Hk).
  - apply par_with_var. intros []; try apply rr_crash. cbn [vars addt].
    apply (kr_k t k k' (setvars (vset id (VBool (negb b)) (vars s)) s) a Hk).
  - now apply kr_k.
  - apply par_with_var. intros. now apply kr_k.
  - apply par_with_var. intros w. cbn [vars pos addt]. destruct (all_eq w ids (vars s)) as [[|]|].
    + now apply kr_k.
    + apply (kr_k t k k' (emit (EError TCounts (pos s) (pos s)) s) a Hk).
    + apply rr_crash.
  - cbn [pos addt]. apply par_token_parse. intros e s1. apply par_ws_then. apply kr_cont.
    intros s2 a2. apply par_with_var. intros _. cbn [vars addt].
    apply (kr_k t k k' (setvars (vset id (VLex (pos s) e) (vars s2)) s2) a2 Hk).
  - cbn [pos addt]. apply par_token_parse. intros e s1. apply par_ws_then. apply kr_cont.
    intros s2 a2. apply par_with_var. intros w. destruct (lex_eqb inp w (pos s) e).
    + now apply kr_k.
    + apply (kr_k t k k' (emit (EError tag (pos s) e) s2) a2 Hk).
  - apply rr_res.
  - cbn [pos addt]. apply (kr_k t k k' (emit (EToken KPosition (pos s) (pos s)) s) _ Hk).
  - cbn [pos addt].
    apply (par_parse _ _ HE t c r k k' (emit (EToken KPosition (pos s) (pos s)) s) _ Hk).
  - cbn [pos addt]. apply par_token_parse. intros. now apply par_ws_then.
  - cbn [pos addt]. apply (par_parse _ _ HE). now apply par_capr_cont.
  - cbn [pos addt]. destruct (eof inp (pos s)).
    + apply (kr_k t k k' (emit (EToken KEof (pos s) (pos s)) s) a Hk).
    + apply (kr_k t k k' (emit (EError TEof (pos s) (pos s)) s) a Hk).
  - unfold pas_after. apply rr_delim; [apply par_final|]. intros. now apply kr_k.
  - cbn [pos addt]. apply par_token_parse. intros e s1. apply par_ws_then. apply kr_cont.
    intros s2 a2. destruct (f (slice inp (pos s) e)).
    + now apply kr_k.
    + apply (rr_res t OFalse (emit (EError tag (pos s) e) s2)).
  - pose proof (par_do_action t (Cx (p_ws (prods p)) (cx_max c)) p (setvars [] s)) as Hr.
    change (setvars [] (addt t s)) with (addt t (setvars [] s)).
    rri Hr. cbn [vars addt]. destruct o; auto using rr_crash.
    + apply (rr_res t OFalse (setvars (vars s) s0)).
    + apply (kr_k t k k' (setvars (vars s) s0) _ Hk).
Qed.

Lemma par_try_step r vs p : le BNoFuel (try_step inp prods E r vs p) (try_step inp prods E' r vs p).
Proof.
  assert (Ht : forall r p (f : bool -> nat -> bres),
    le BNoFuel (match tmatch inp E r p with TR ok e => f ok e | TNoFuel => BNoFuel | TCrash => BCrash end)
               (match tmatch inp E' r p with TR ok e => f ok e | TNoFuel => BNoFuel | TCrash => BCrash end)).
  { intros r0 p0 f. destruct (par_tmatch r0 p0) as [->|[? ->]]; [apply le_refl|right; auto]. }
  pose proof (par_try _ _ HE) as Hy.
  destruct r; cbn [try_step]; try apply le_refl; try apply Hy; try apply Ht.
  - apply par_t_chc.
  - destruct (Hy (p_rule (prods p0)) vs p) as [->|[? ->]]; [apply le_refl|right; auto].
Qed.

Lemma par_cancel_step r b : le None (cancel_step inp prods E r b) (cancel_step inp prods E' r b).
Proof.
  pose proof (par_cancel _ _ HE) as Hc.
  destruct r; cbn [cancel_step]; try apply le_refl; try apply Hc.
  - apply par_c_chc.
  - destruct (Hc (p_rule (prods p)) (b_in b)) as [->|[? ->]]; [apply le_refl|right; auto].
Qed.

Lemma par_finish_step t c r b k k' s a : kr t k k' ->
  rr t (finish_step inp prods E c r b k s a) (finish_step inp prods E' c r b k' (addt t s) a).
Proof.
  intros Hk. destruct r; cbn [finish_step]; try apply rr_crash; cbn [pos addt].
  - now apply par_tok_finish.
  - now apply par_tok_finish.
  - apply (par_finish _ _ HE). now apply par_seq_cont.
  - now apply (par_parse _ _ HE).
  - destruct b; try apply rr_crash. now apply par_f_chc.
  - now apply (par_parse _ _ HE).
  - now apply (par_finish _ _ HE).
  - now apply (par_parse _ _ HE).
  - apply rr_delim; [apply par_ffinal|]. intros. apply rr_delim; [apply (par_lst _ _ HE)|].
    intros. now apply kr_k.
  - apply par_try_after; auto. apply (par_finish _ _ HE). now apply par_try_cont.
  - apply par_prod_after; auto.
    apply (par_ffinal t _ _ _ (emit (EPStart p (b_at inp b)) s)).
  - apply par_inc_depth. intros. apply (par_finish _ _ HE). now apply par_depth_cont.
  - apply (par_finish _ _ HE t c r b _ _ (setwsf false s) a). now apply par_nows_cont.
  - apply (kr_k t k k' (emit (EBack (fst (b_range inp b)) (snd (b_range inp b))) s) a Hk).
  - apply (kr_k t k k' (emit (EBack (fst (b_range inp b)) (snd (b_range inp b))) s) a Hk).
  - apply (kr_k t k k' (emit (EBack (fst (b_range inp b)) (snd (b_range inp b))) s) a Hk).
  - apply rr_delim; [apply par_ffinal|]. intros. now apply par_rep_run.
  - apply (par_finish _ _ HE). now apply par_push_cont.
  - now apply kr_k.
  - now apply kr_k.
  - apply par_tok_finish. apply kr_cont. intros s2 a2. apply par_with_var. intros _. cbn [vars addt].
    apply (kr_k t k k' (setvars (vset id (VLex (pos s) (b_end inp b)) (vars s2)) s2) a2 Hk).
  - now apply par_tok_finish.
  - apply (par_finish _ _ HE t c r b k k' (emit (EToken KPosition (pos s) (pos s)) s) _ Hk).
  - now apply par_tok_finish.
  - apply (par_finish _ _ HE). now apply par_capr_cont.
  - apply (kr_k t k k' (emit (EToken KEof (pos s) (pos s)) s) a Hk).
  - unfold pas_after. apply rr_delim; [apply par_ffinal|]. intros. now apply kr_k.
  - destruct (f (slice inp (pos s) (b_end inp b))); [now apply par_tok_finish|apply rr_crash].
Qed.

Lemma par_step : par (step inp prods E) (step inp prods E').
Proof.
  constructor; cbn; intros.
  - now apply par_parse_step.
  - apply par_try_step.
  - now apply par_finish_step.
  - apply par_cancel_step.
  - apply par_wsloop.
  - apply par_lst_step.
  - apply par_lstt_step.
  - now apply par_reco_step.
  - apply par_comb_step.
  - apply par_flags_step.
Qed.

End Step.

Lemma par_0 E : lax = true -> par eng0 E.
Proof. intros H. constructor; cbn; intros; try (apply rr_lax; exact H); right; auto. Qed.

Lemma par_00 : par eng0 eng0.
Proof. constructor; cbn; intros; try apply rr_nofuel; apply le_refl. Qed.

End Par.

Section Facts.
Variable inp : list N.
Variable prods : nat -> production.
Notation eng := (eng inp prods).

Lemma par_eng n m : n <= m -> par true (eng n) (eng m).
Proof.
  revert m. induction n as [|n IH]; intros m H.
  - now apply par_0.
  - destruct m as [|m]; [lia|]. cbn. apply par_step. apply IH. lia.
Qed.

Lemma par_refl n : par false (eng n) (eng n).
Proof. induction n as [|n IH]; cbn; [apply par_00|now apply par_step]. Qed.

End Facts.
