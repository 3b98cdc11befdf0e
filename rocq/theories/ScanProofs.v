(** Proofs about the scanner. *)
From Verif Require Import Prelude RuleModel RuleSpec RuleDen RuleGood RuleMono RuleSem RuleLaws RuleMain ActionModel ScanModel ScanSpec.
Close Scope N_scope.

Lemma run_history inp E c u : forall sc result sc', sc_run inp E c u sc = PRes result sc' ->
  exists log, history inp E c sc log sc'.
Proof.
  induction u as [r|o next IH]; intros sc result sc'; cbn [sc_run].
  - intros [= _ <-]. exists []. constructor.
  - destruct (sc_op inp E c sc o) as [a sc1| |] eqn:Ho; try discriminate. intros H.
    apply IH in H. destruct H as (log & H). exists ((o, a) :: log). now apply hist_cons with sc1.
Qed.

Lemma hist_app inp E c sc1 l1 sc2 l2 sc3 :
  history inp E c sc1 l1 sc2 -> history inp E c sc2 l2 sc3 -> history inp E c sc1 (l1 ++ l2) sc3.
Proof. induction 1; cbn [app]; auto. intros. econstructor; eauto. Qed.

(** ** A failed scanner *)
Lemma failed_op inp E c sc o a sc' : sc_state sc = Failed -> quiet o -> sc_op inp E c sc o = SRes a sc' ->
  sc_state sc' = Failed /\ sc_guards sc' = sc_guards sc /\ failed_answer o a /\
  sc_st sc' = emits (own_errors [(o, a)]) (sc_st sc).
Proof.
  intros Hf Hq. assert (Hr : forall s, emits [] s = s) by (intros []; reflexivity).
  destruct o; cbn [quiet] in Hq; try contradiction; cbn [sc_op own_errors];
    unfold sc_parse, sc_branch, sc_discard, sc_error; rewrite ?Hf; cbn [is_failed];
    intros [= <- <-]; cbn; rewrite ?Hr; auto.
Qed.
Lemma stays_failed inp E c sc log sc' : history inp E c sc log sc' -> sc_state sc = Failed ->
  Forall (fun x => quiet (fst x)) log ->
  sc_state sc' = Failed /\ sc_st sc' = emits (own_errors log) (sc_st sc) /\
  Forall (fun x => failed_answer (fst x) (snd x)) log.
Proof.
  induction 1 as [sc|sc o a sc1 log sc2 Ho Hh IH]; intros Hf Hq.
  - repeat split; auto. destruct (sc_st sc). reflexivity.
  - inversion Hq as [|? ? Hq1 Hq2]; subst. destruct (failed_op _ _ _ _ _ _ _ Hf Hq1 Ho) as (H1 & _ & H2 & H3).
    destruct (IH H1 Hq2) as (H4 & H5 & H6). split; [exact H4|]. split; [|constructor; assumption].
    rewrite H5, H3. unfold emits. cbn [pos depth wsf vars trace]. f_equal.
    destruct o; cbn [own_errors rev app]; rewrite ?app_nil_r; try reflexivity;
      rewrite <- app_assoc; reflexivity.
Qed.

(** Only finishing a guard makes a scanner normal. *)
Lemma after_state sc result r a sc' : scan_after sc result r = SRes a sc' ->
  sc_state sc' = sc_state sc \/ sc_state sc' = Failed.
Proof. destruct r as [[| | |] s m| |]; cbn; try discriminate; intros [= _ <-]; auto. Qed.
Lemma op_state inp E c sc o a sc' : sc_op inp E c sc o = SRes a sc' ->
  o = OFinish \/ sc_state sc' = sc_state sc \/ sc_ok sc' = false.
Proof.
  unfold sc_ok. destruct o; cbn [sc_op]; auto.
  - unfold sc_parse. destruct (is_failed (sc_state sc)); [intros [= _ <-]; auto|].
    intros H. apply after_state in H. destruct H as [-> | ->]; auto.
  - unfold sc_branch. destruct (is_failed (sc_state sc)); [intros [= _ <-]; auto|].
    destruct (e_try _ _ _ _) as [[|] b| |]; try discriminate.
    + intros H. apply after_state in H. destruct H as [-> | ->]; auto.
    + destruct (e_cancel _ _ _); [|discriminate]. intros [= _ <-]. auto.
  - unfold sc_discard. destruct (is_failed (sc_state sc)); [intros [= _ <-]; auto|].
    destruct (tmatch _ _ _ _); try discriminate. intros [= _ <-]; auto.
  - intros [= _ <-]; auto.
  - intros [= _ <-]; auto.
  - destruct (is_failed (sc_state sc)); [|discriminate]. intros [= _ <-]; auto.
  - destruct (sc_guards sc); [discriminate|]. intros [= _ <-]; auto.
Qed.
Lemma needs_finish inp E c sc log sc' : history inp E c sc log sc' -> sc_ok sc = false -> sc_ok sc' = true ->
  exists a, In (OFinish, a) log.
Proof.
  induction 1 as [sc|sc o a sc1 log sc2 Ho Hh IH]; intros Hf Ht; [congruence|].
  destruct (op_state _ _ _ _ _ _ _ Ho) as [-> |[H|H]].
  - exists a. now left.
  - destruct IH as (a' & Ha); auto.
    + unfold sc_ok in *. now rewrite H.
    + exists a'. now right.
  - destruct IH as (a' & Ha); auto. exists a'. now right.
Qed.

(** ** What the operations do *)
Section Sem.
Variable inp : list N.
Variable prods : nat -> production.
Notation eng := (eng inp prods).
Variable c : cx.

Lemma pas_final r o s m : pas_after final [] r = Res o s m ->
  m = 0 /\ ((o = OFalse /\ exists m', r = Res OFalse s m') \/ (exists vs m', o = OTrue [VAs vs] /\ r = Res (OTrue vs) s m')).
Proof.
  unfold pas_after. destruct r as [[|vs| |] s0 m0| |]; cbn; try discriminate; intros [= <- <- <-]; split; eauto.
Qed.
Lemma parse_op n sc result r a sc' : sc_state sc <> Failed -> sc_op inp (eng n) c sc (OParse result r) = SRes a sc' ->
  a_bool a = true /\ sc_guards sc' = sc_guards sc /\
  ((Runs inp prods c r (sc_st sc) OFalse (sc_st sc') /\ sc_state sc' = Failed /\ a_result a = result) \/
   (exists vs, Runs inp prods c r (sc_st sc) (OTrue vs) (sc_st sc') /\ sc_state sc' = sc_state sc /\ a_result a = Some (VAs vs))).
Proof.
  intros Hf. cbn [sc_op]. unfold sc_parse.
  replace (is_failed (sc_state sc)) with false by (destruct (sc_state sc); auto; congruence).
  destruct n as [|n]; [discriminate|].
  change (e_parse (eng (S n)) c (RPas r) final (sc_st sc) []) with
    (pas_after final [] (e_parse (eng n) c r final (sc_st sc) [])).
  destruct (pas_after final [] _) as [o s m| |] eqn:Hp; try discriminate.
  apply pas_final in Hp. destruct Hp as (-> & [(-> & m' & Hp)|(vs & m' & -> & Hp)]); apply parse_Runs in Hp;
    cbn; intros [= <- <-]; cbn; split; auto; split; auto. right. eauto.
Qed.
Lemma branch_op n sc result r a sc' : sc_state sc <> Failed -> sc_op inp (eng n) c sc (OBranch result r) = SRes a sc' ->
  sc_guards sc' = sc_guards sc /\
  ((a_bool a = false /\ (exists es, Declines inp prods r (sc_st sc) es /\ sc_st sc' = emits es (sc_st sc)) /\
    sc_state sc' = sc_state sc /\ a_result a = result) \/
   (a_bool a = true /\ Takes inp prods c r (sc_st sc) OFalse (sc_st sc') /\ sc_state sc' = Failed /\ a_result a = result) \/
   (a_bool a = true /\ exists vs, Takes inp prods c r (sc_st sc) (OTrue vs) (sc_st sc') /\
    sc_state sc' = sc_state sc /\ a_result a = Some (VAs vs))).
Proof.
  intros Hf. cbn [sc_op]. unfold sc_branch.
  replace (is_failed (sc_state sc)) with false by (destruct (sc_state sc); auto; congruence).
  destruct n as [|n]; [discriminate|].
  change (e_try (eng (S n)) (RPas r)) with (e_try (eng n) r).
  change (e_cancel (eng (S n)) (RPas r)) with (e_cancel (eng n) r).
  destruct (e_try (eng n) r _ _) as [[|] b| |] eqn:Ht; try discriminate; apply try_Tries in Ht.
  - change (e_finish (eng (S n)) c (RPas r) b final (sc_st sc) []) with
      (pas_after final [] (e_finish (eng n) c r b final (sc_st sc) [])).
    destruct (pas_after final [] _) as [o s m| |] eqn:Hp; try discriminate.
    apply pas_final in Hp. destruct Hp as (-> & [(-> & m' & Hp)|(vs & m' & -> & Hp)]); apply finish_Finishes in Hp;
      cbn; intros [= <- <-]; cbn; split; auto; right.
    + left. repeat split; auto. exists b. auto.
    + right. split; auto. exists vs. repeat split; auto. exists b. auto.
  - destruct (e_cancel (eng n) r b) as [es|] eqn:Hc; [|discriminate]. apply cancel_Cancels in Hc.
    intros [= <- <-]. cbn. split; auto. left. repeat split; auto. exists es. split; auto. exists b. auto.
Qed.
Lemma discard_op n sc t a sc' : sc_state sc <> Failed -> sc_op inp (eng n) c sc (ODiscard t) = SRes a sc' ->
  sc_guards sc' = sc_guards sc /\ sc_state sc' = sc_state sc /\
  exists e e', Matches inp prods t (pos (sc_st sc)) (a_bool a) e /\
    e' = (if a_bool a then e else pos (sc_st sc)) /\
    sc_st sc' = setpos e' (emit (EToken KError (pos (sc_st sc)) e') (sc_st sc)).
Proof.
  intros Hf. cbn [sc_op]. unfold sc_discard.
  replace (is_failed (sc_state sc)) with false by (destruct (sc_state sc); auto; congruence).
  destruct (tmatch inp (eng n) t _) as [ok e| |] eqn:Ht; try discriminate. apply tmatch_Matches in Ht.
  intros [= <- <-]. cbn. repeat split; auto. exists e, (if ok then e else pos (sc_st sc)). auto.
Qed.

(** ** Events *)
Definition moves (g g' : nat) (s s' : st) : Prop :=
  exists es, ext s s' es /\ tile (pos s) es = Some (pos s') /\ segment (pos s) es (pos s') /\
    (forall stk, nest es (repeat FR g ++ stk) = Some (repeat FR g' ++ stk)) /\
    Forall (ev_in (length inp)) es /\ ok inp s'.

Lemma moves_Mv g s s' : Mv inp s s' -> moves g g s s'.
Proof.
  intros (es & He & (Ht & Hg) & Hb & Hi & Ho & _). exists es. repeat split; auto.
Qed.
Lemma moves_trans g g1 g2 s s1 s2 : moves g g1 s s1 -> moves g1 g2 s1 s2 -> moves g g2 s s2.
Proof.
  intros (es & He & Ht & Hg & Hb & Hi & Ho) (es' & He' & Ht' & Hg' & Hb' & Hi' & Ho').
  exists (es ++ es'). repeat split.
  - eapply ext_app; eauto.
  - rewrite (tile_app _ _ _ _ Ht). exact Ht'.
  - eapply seg_app; eauto.
  - intros stk. rewrite (nest_app _ _ _ _ (Hb stk)). apply Hb'.
  - apply Forall_app. auto.
  - exact Ho'.
Qed.

Lemma after_moves sc result r a sc' : scan_after sc result r = SRes a sc' ->
  (forall o s m, r = Res o s m -> Mv inp (sc_st sc) s) ->
  moves (sc_guards sc) (sc_guards sc') (sc_st sc) (sc_st sc').
Proof.
  intros H Hm. destruct r as [[| | |] s m| |]; cbn in H; try discriminate; injection H as _ <-; cbn;
    apply moves_Mv; eapply Hm; eauto.
Qed.
Lemma dres_Mv w s o s' m : dres inp prods w s (Res o s' m) -> Mv inp s s'.
Proof. destruct o; cbn; intros [H _]; auto. apply H. Qed.

Lemma op_moves n sc o a sc' : ok inp (sc_st sc) -> own_error_in inp o -> sc_op inp (eng n) c sc o = SRes a sc' ->
  moves (sc_guards sc) (sc_guards sc') (sc_st sc) (sc_st sc').
Proof.
  intros Hok Hin. pose proof (eng_good inp prods n) as HE.
  assert (Hr : moves (sc_guards sc) (sc_guards sc) (sc_st sc) (sc_st sc)) by (apply moves_Mv, S_refl, Hok).
  destruct o; cbn [sc_op own_error_in] in *.
  - unfold sc_parse. destruct (is_failed (sc_state sc)); [intros [= _ <-]; exact Hr|].
    intros H. eapply after_moves; [exact H|]. intros o s m He.
    pose proof (run_d inp prods (eng n) HE c (RPas r) (sc_st sc) true Hok) as Hd. rewrite He in Hd.
    eapply dres_Mv. apply Hd. discriminate.
  - unfold sc_branch. destruct (is_failed (sc_state sc)); [intros [= _ <-]; exact Hr|].
    destruct (e_try _ _ _ _) as [[|] b| |] eqn:Ht; try discriminate.
    + intros H. eapply after_moves; [exact H|]. intros o s m He.
      pose proof (runf_d inp prods (eng n) HE c (RPas r) b (sc_st sc) true Hok Ht) as Hd. rewrite He in Hd.
      eapply dres_Mv. apply Hd. discriminate.
    + destruct (e_cancel _ _ _) as [es|] eqn:Hc; [|discriminate]. intros [= _ <-]. cbn. apply moves_Mv, S_debug; auto.
      eapply (ge_cancel _ _ _ HE); eauto.
  - unfold sc_discard. destruct (is_failed (sc_state sc)); [intros [= _ <-]; exact Hr|].
    destruct (tmatch inp (eng n) t (pos (sc_st sc))) as [okk e| |] eqn:Ht; try discriminate.
    apply (tmatch_bounds inp prods (eng n) HE) in Ht; [|exact Hok].
    intros [= _ <-]. cbn. apply moves_Mv. destruct okk; apply S_token; auto; unfold ok in Hok; lia.
  - intros [= _ <-]. cbn. apply moves_Mv, S_error; auto; lia.
  - intros [= _ <-]. cbn. apply moves_Mv, S_error; auto; lia.
  - destruct (is_failed (sc_state sc)); [|discriminate]. intros [= _ <-]. cbn.
    exists [ERStart (sc_pos sc)]. unfold ext, sc_pos. split; [reflexivity|]. split; [reflexivity|].
    split; [constructor; [exact I|constructor]|]. split; [reflexivity|]. split; [constructor; [exact Hok|constructor]|exact Hok].
  - destruct (sc_guards sc) as [|g]; [discriminate|]. intros [= _ <-]. cbn.
    exists [ERFinish (sc_pos sc)]. unfold ext, sc_pos. split; [reflexivity|]. split; [reflexivity|].
    split; [constructor; [exact I|constructor]|]. split; [reflexivity|]. split; [constructor; [exact Hok|constructor]|exact Hok].
  - destruct (sc_guards sc) as [|g]; [discriminate|]. intros [= _ <-]. cbn.
    exists [ERCancel (sc_pos sc)]. unfold ext, sc_pos. split; [reflexivity|]. split; [reflexivity|].
    split; [constructor; [exact I|constructor]|]. split; [reflexivity|]. split; [constructor; [exact Hok|constructor]|exact Hok].
Qed.
Lemma moves_ok g g' s s' : moves g g' s s' -> ok inp s'.
Proof. intros (? & _ & _ & _ & _ & _ & H). exact H. Qed.
Lemma hist_moves n sc log sc' : history inp (eng n) c sc log sc' -> ok inp (sc_st sc) ->
  Forall (fun x => own_error_in inp (fst x)) log ->
  moves (sc_guards sc) (sc_guards sc') (sc_st sc) (sc_st sc').
Proof.
  induction 1 as [sc|sc o a sc1 log sc2 Ho Hh IH]; intros Hok Hin; [apply moves_Mv, S_refl, Hok|].
  inversion Hin as [|? ? H1 H2]; subst. pose proof (op_moves _ _ _ _ _ Hok H1 Ho) as Hm.
  eapply moves_trans; [exact Hm|]. apply IH; [eapply moves_ok; eauto|exact H2].
Qed.

(** ** A scanner that is not ok has reported an error *)
Definition err_inv (sc : scanner) : Prop := sc_ok sc = false \/ sc_guards sc <> 0 -> has_error (trace (sc_st sc)) = true.
Lemma has_error_app a b : has_error (a ++ b) = has_error a || has_error b.
Proof. apply existsb_app. Qed.
Lemma has_error_rev l : has_error (rev l) = has_error l.
Proof. induction l; auto. cbn [rev]. rewrite has_error_app, IHl. cbn. rewrite orb_false_r. apply orb_comm. Qed.
Lemma moves_err g g' s s' : moves g g' s s' -> has_error (trace s) = true -> has_error (trace s') = true.
Proof. intros (es & He & _) H. unfold ext in He. rewrite He, has_error_app, H. apply orb_true_r. Qed.
Lemma HasErr_trace s s' : HasErr s s' -> has_error (trace s') = true.
Proof. intros (es & He & H). unfold ext in He. rewrite He, has_error_app, has_error_rev, H. reflexivity. Qed.

Lemma after_err sc result r a sc' : scan_after sc result r = SRes a sc' ->
  guarded prods -> dres inp prods false (sc_st sc) r -> err_inv sc -> err_inv sc'.
Proof.
  intros H Hg Hd Hi. destruct r as [[| vs | |] s m| |]; cbn in H; try discriminate; injection H as _ <-; unfold err_inv; cbn [sc_st sc_guards sc_ok sc_state].
  - intros _. destruct Hd as [[_ Hd] _]. apply (HasErr_trace (sc_st sc)). apply Hd; auto.
  - intros Hx. apply dres_Mv in Hd. eapply moves_err; [apply (moves_Mv 0), Hd|]. apply Hi. exact Hx.
Qed.
Lemma op_err n sc o a sc' : guarded prods -> weakc c = false -> ok inp (sc_st sc) -> own_error_in inp o -> strong o ->
  sc_op inp (eng n) c sc o = SRes a sc' -> err_inv sc -> err_inv sc'.
Proof.
  intros Hg Hc Hok Hin Hs Ho Hi. pose proof (eng_good inp prods n) as HE.
  pose proof (op_moves _ _ _ _ _ Hok Hin Ho) as Hm.
  assert (Hkeep : sc_state sc' = sc_state sc -> sc_guards sc' = sc_guards sc -> err_inv sc').
  { intros H1 H2 Hx. eapply moves_err; [exact Hm|]. apply Hi. unfold sc_ok in *. now rewrite <- H1, <- H2. }
  destruct o; cbn [sc_op strong] in *.
  - unfold sc_parse in Ho. destruct (is_failed (sc_state sc)); [injection Ho as _ <-; auto|].
    eapply after_err; eauto. apply (run_d inp prods (eng n) HE); auto.
  - unfold sc_branch in Ho. destruct (is_failed (sc_state sc)); [injection Ho as _ <-; auto|].
    destruct (e_try _ _ _ _) as [[|] b| |] eqn:Ht; try discriminate.
    + eapply after_err; eauto. apply (runf_d inp prods (eng n) HE); auto.
    + destruct (e_cancel _ _ _) as [es|]; [|discriminate]. injection Ho as _ <-. apply Hkeep; reflexivity.
  - unfold sc_discard in Ho. destruct (is_failed (sc_state sc)); [injection Ho as _ <-; auto|].
    destruct (tmatch _ _ _ _); try discriminate. injection Ho as _ <-. apply Hkeep; reflexivity.
  - injection Ho as _ <-. intros _. reflexivity.
  - injection Ho as _ <-. intros _. reflexivity.
  - destruct (is_failed (sc_state sc)) eqn:Hf; [|discriminate]. injection Ho as _ <-. intros _. cbn. apply Hi.
    left. unfold sc_ok. destruct (sc_state sc); auto; discriminate.
  - destruct (sc_guards sc) as [|g] eqn:Hgd; [discriminate|]. injection Ho as _ <-. intros _. cbn. apply Hi. right. lia.
  - destruct (sc_guards sc) as [|g] eqn:Hgd; [discriminate|]. injection Ho as _ <-. intros _. cbn. apply Hi. right. lia.
Qed.
Lemma hist_err n sc log sc' : guarded prods -> weakc c = false -> history inp (eng n) c sc log sc' -> ok inp (sc_st sc) ->
  Forall (fun x => own_error_in inp (fst x)) log -> Forall (fun x => strong (fst x)) log ->
  err_inv sc -> err_inv sc'.
Proof.
  intros Hg Hc. induction 1 as [sc|sc o a sc1 log sc2 Ho Hh IH]; intros Hok Hin Hst Hi; [exact Hi|].
  inversion Hin as [|? ? H1 H2]; inversion Hst as [|? ? H3 H4]; subst.
  pose proof (op_moves _ _ _ _ _ Hok H1 Ho) as Hm. apply IH; auto.
  - eapply moves_ok; eauto.
  - eapply op_err; eauto.
Qed.

Lemma finish_status tr n q log sc st errs es : guarded prods -> weakc c = false ->
  history inp (eng n) c (scan_start q) log sc ->
  Forall (fun x => own_error_in inp (fst x)) log -> Forall (fun x => strong (fst x)) log ->
  scan_finish tr q sc = (st, errs, es) ->
  map (fun r => (r_tag r, r_from r, r_to r)) errs = errors es /\
  (st = Success <-> sc_ok sc = true /\ errs = []) /\
  (st = Recovered <-> sc_ok sc = true /\ errs <> []) /\
  (st = Fatal <-> sc_ok sc = false).
Proof.
  intros Hg Hc Hh Hin Hst.
  assert (Hi : err_inv sc).
  { eapply hist_err; eauto; [unfold ok; cbn; lia|]. intros [H|H]; cbn in *; [discriminate|congruence]. }
  unfold scan_finish. set (ev := if sc_ok sc then _ else _). set (l := rev (trace (emit ev (sc_st sc)))).
  assert (Hl : has_error l = has_error (trace (sc_st sc))).
  { unfold l. rewrite has_error_rev. cbn. unfold ev. destruct (sc_ok sc); reflexivity. }
  unfold validate_of. intros [= <- <- <-].
  assert (Hlen : length (v_errors (vh_of tr l)) = length (filter is_err l)) by exact (vh_fold prods tr l (VState [] [])).
  split; [unfold vh_of; now rewrite vh_errors|].
  pose proof (has_error_len l) as He. rewrite <- Hlen in He.
  assert (Hn : length (v_errors (vh_of tr l)) = 0 <-> v_errors (vh_of tr l) = []) by (split; [apply length_zero_iff_nil|now intros ->]).
  unfold status_of. destruct (Nat.eqb_spec (length (v_errors (vh_of tr l))) 0) as [H0|H0].
  - assert (Hok : sc_ok sc = true).
    { destruct (sc_ok sc) eqn:Hok; auto. rewrite Hl, Hi in He by auto. discriminate. }
    rewrite Hok. apply Hn in H0. repeat split; auto; try discriminate; try tauto.
  - assert (v_errors (vh_of tr l) <> []) by tauto.
    destruct (sc_ok sc); repeat split; auto; try discriminate; try tauto; intros (? & ?); congruence.
Qed.

Lemma finish_events tr n q log sc st errs es : history inp (eng n) c (scan_start q) log sc ->
  Forall (fun x => own_error_in inp (fst x)) log -> sc_guards sc = 0 ->
  scan_finish tr q sc = (st, errs, es) ->
  tile 0 es = Some (sc_pos sc) /\ segment 0 es (sc_pos sc) /\ balanced es /\
  Forall (ev_in (length inp)) es /\ sc_pos sc <= length inp.
Proof.
  intros Hh Hin Hgu. pose proof (hist_moves _ _ _ _ Hh) as Hm. cbn [scan_start sc_st sc_guards] in Hm.
  destruct Hm as (el & He & Ht & Hs & Hb & Hi & Ho); [unfold ok; cbn; lia|exact Hin|].
  rewrite Hgu in Hb. cbn [repeat app] in Hb. cbn in He, Ht, Hs.
  unfold scan_finish. intros [= <- <- <-]. cbn [emit trace].
  rewrite He. cbn [scan_start sc_st emit trace rev]. rewrite rev_app_distr, rev_involutive. cbn [rev app].
  unfold sc_pos. set (z := if sc_ok sc then _ else _).
  assert (Hz : z = EPFinish q (pos (sc_st sc)) \/ z = EPCancel q (pos (sc_st sc))) by (unfold z, sc_pos; destruct (sc_ok sc); auto).
  clearbody z. repeat split.
  - cbn [tile]. rewrite (tile_app _ _ _ _ Ht). destruct Hz as [-> | ->]; reflexivity.
  - destruct Hz as [-> | ->]; [eapply seg_finish|eapply seg_cancel]; eauto; constructor.
  - apply bal_frame; [exact Hb|]. intros stk. exists (FP q). cbn [nest1]. destruct Hz as [-> | ->]; cbn [nest1]; rewrite Nat.eqb_refl; auto.
  - constructor; [exact I|]. apply Forall_app. split; [exact Hi|]. constructor; [|constructor]. unfold ok in Ho.
    destruct Hz as [-> | ->]; cbn; auto.
  - exact Ho.
Qed.

(** ** In a grammar *)
Lemma rule_events n u s result sc : ok inp s -> sc_run inp (eng n) c u (Scanner s Normal 0) = PRes result sc ->
  exists log, history inp (eng n) c (Scanner s Normal 0) log sc /\
    (Forall (fun x => own_error_in inp (fst x)) log -> sc_guards sc = 0 ->
     exists es, trace (sc_st sc) = rev es ++ trace s /\ tile (pos s) es = Some (sc_pos sc) /\
       segment (pos s) es (sc_pos sc) /\ balanced es /\ Forall (ev_in (length inp)) es /\ sc_pos sc <= length inp).
Proof.
  intros Hok H. destruct (run_history _ _ _ _ _ _ _ H) as (log & Hh). exists log. split; [exact Hh|].
  intros Hin Hg. destruct (hist_moves _ _ _ _ Hh Hok Hin) as (es & He & Ht & Hs & Hb & Hi & Ho).
  cbn [sc_guards sc_st] in *. rewrite Hg in Hb. exists es. repeat split; auto.
Qed.
Lemma rule_parse_as n r k s args :
  scan_rule inp (eng (S n)) c false (fun _ => PDo (OParseT r) (fun a _ _ => PRet (a_result a))) k s args
  = e_parse (eng (S n)) c (RPas r) k s [].
Proof.
  unfold scan_rule. cbn [sc_run sc_op OParseT]. unfold sc_parse. cbn [sc_state is_failed sc_st].
  change (e_parse (eng (S n)) c (RPas r) final s []) with (pas_after final [] (e_parse (eng n) c r final s [])).
  change (e_parse (eng (S n)) c (RPas r) k s []) with (pas_after k [] (e_parse (eng n) c r final s [])).
  unfold pas_after. destruct (e_parse (eng n) c r final s []) as [[|vs| |] s1 m| |]; reflexivity.
Qed.
End Sem.
