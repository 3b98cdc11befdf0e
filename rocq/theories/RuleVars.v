(** Every parser leaves as many context variables behind as there were before it. *)
From Verif Require Import Prelude RuleModel RuleSpec RuleDen RuleGood RuleMono RuleSem RuleLaws RuleLists RuleSeq.
Close Scope N_scope.

Section Vars.
Variable inp : list N.
Variable prods : nat -> production.

Definition vb (s : st) (r : res) : Prop :=
  match r with Res _ s' _ => length (vars s') = length (vars s) | _ => True end.
Definition vk (k : cont) : Prop := forall s a, vb s (k_fn k s a).

Record ve (E : engine) : Prop := {
  ve_parse : forall c r k s a, vk k -> vb s (e_parse E c r k s a);
  ve_finish : forall c r b k s a, vk k -> vb s (e_finish E c r b k s a);
  ve_reco : forall c lim al p k s a, vk k -> vb s (e_reco E c lim al p k s a);
  ve_lst : forall c item sep s acc, vb s (e_lst E c item sep s acc);
  ve_lstt : forall c t item sep lim ls sp s acc, vb s (e_lstt E c t item sep lim ls sp s acc);
  ve_comb : forall c dup al n cnt h s acc, vb s (e_comb E c dup al n cnt h s acc);
  ve_flags : forall c r t z s, vb s (e_flags E c r t z s)
}.

Lemma ve_0 : ve eng0.
Proof. split; intros; exact I. Qed.

Lemma vb_eq s s1 r : length (vars s1) = length (vars s) -> vb s1 r -> vb s r.
Proof. intros H. destruct r; cbn; auto. congruence. Qed.
Lemma vset_len id v l : length (vset id v l) = length l.
Proof. induction l as [|[] l IH]; cbn; auto. destruct (n =? id); cbn; auto. Qed.
Lemma vk_final : vk final.
Proof. intros s a. reflexivity. Qed.
Lemma unlink_len n s : n <= length (vars s) -> length (vars (unlink n s)) = n.
Proof. intros H. unfold unlink. cbn. rewrite skipn_length. lia. Qed.

Section Step.
Variable E : engine.
Hypothesis HE : ve E.

Lemma vb_delim s r ok : vb s r -> (forall s' v, length (vars s') = length (vars s) -> vb s (ok s' v)) -> vb s (delim r ok).
Proof. intros Hr H. destruct r as [[]| |]; cbn in *; auto. Qed.
Lemma vb_orelse s r ok no : vb s r -> (forall s' v, length (vars s') = length (vars s) -> vb s (ok s' v)) ->
  (forall s', length (vars s') = length (vars s) -> vb s (no s')) -> vb s (orelse r ok no).
Proof. intros Hr H H1. destruct r as [[]| |]; cbn in *; auto. Qed.
Lemma vb_cancel s r b s0 ok : vars s0 = vars s -> (forall s', vars s' = vars s -> vb s (ok s')) -> vb s (cancel_then E r b s0 ok).
Proof. intros H0 H. unfold cancel_then. destruct (e_cancel E r b); cbn; auto. Qed.
Lemma vb_skip_ws s w s0 ok : length (vars s0) = length (vars s) ->
  (forall s', vars s' = vars s0 -> vb s (ok s')) -> vb s (skip_ws E w s0 ok).
Proof.
  intros H0 H. unfold skip_ws. destruct (token_rule (strip_ws w)).
  - destruct (e_wsloop E (strip_ws w) (pos s0)); cbn; auto.
  - destruct (e_parse E sub_cx _ final _ []) as [[]| |]; cbn; auto.
Qed.
Lemma vb_ws_then s c k s0 a : length (vars s0) = length (vars s) -> vk k -> vb s (ws_then E c k s0 a).
Proof.
  intros H0 H. apply (vb_eq s s0); [assumption|]. unfold ws_then. destruct (cx_ws c); [|apply H].
  destruct (k_nows k || negb (wsf s0)); [apply H|]. apply vb_skip_ws; auto. intros s' Hs.
  apply (vb_eq s0 s'); [now rewrite Hs|apply H].
Qed.
Lemma vb_token_parse r s ok : (forall e s', vars s' = vars s -> vb s (ok e s')) -> vb s (token_parse inp E r s ok).
Proof.
  intros H. unfold token_parse. destruct (tmatch inp E r (pos s)) as [[|]| |]; cbn; auto.
Qed.
Lemma vb_branch_or c r k s a other : vk k -> (forall s', vars s' = vars s -> vb s (other s')) ->
  vb s (branch_or E c r k s a other).
Proof.
  intros Hk Ho. unfold branch_or. destruct (e_try E r (vars s) (pos s)) as [[|] b| |]; try exact I.
  - now apply (ve_finish E HE).
  - now apply vb_cancel.
Qed.
Lemma vk_seq c rs k : vk k -> vk (seq_cont E c rs k).
Proof.
  intros Hk. induction rs as [|r rs IH]; cbn [seq_cont]; auto. intros s a. cbn [k_fn]. now apply (ve_parse E HE).
Qed.
Lemma vb_chc c u k a rs : vk k -> forall s, vb s (p_chc E c u rs k s a).
Proof.
  intros Hk. induction rs as [|r rs IH]; intros s; cbn [p_chc].
  - destruct u; cbn; auto.
  - apply vb_branch_or; auto. intros s' Hs. apply (vb_eq s s'); [now rewrite Hs|auto].
Qed.
Lemma vb_f_chc c k a rs : vk k -> forall i bs s, vb s (f_chc E c rs i bs k s a).
Proof.
  intros Hk. induction rs as [|r rs IH]; intros i bs s; cbn [f_chc]; [exact I|]. destruct i.
  - now apply (ve_finish E HE).
  - apply vb_cancel; auto. intros s' Hs. apply (vb_eq s s'); [now rewrite Hs|auto].
Qed.
Lemma vb_err t r s : vb s (p_err E t r s).
Proof. unfold p_err. destruct r; cbn; auto. destruct (run_token E r (pos s)); cbn; auto. Qed.
Lemma vb_mark s r : vb s r -> vb s (mark r).
Proof. destruct r; cbn; auto. Qed.
Lemma vk_try_cont c term k : vk k -> vk (try_cont E c term k).
Proof.
  intros Hk s a. cbn [try_cont k_fn]. apply vb_mark. destruct term; [now apply (ve_parse E HE)|apply Hk].
Qed.
Lemma vb_try_after c rec k a s r : vk k -> vb s r -> vb s (try_after E c rec k a r).
Proof.
  intros Hk Hr. destruct r as [o s' [|m]| |]; try exact Hr; try exact I; [|now destruct o].
  destruct o; try exact I. cbn [try_after]. unfold try_recover.
  destruct rec as [[]|]; apply (vb_eq s s'); try exact Hr; now apply (ve_parse E HE).
Qed.
Lemma vb_prod_after c p k a s r : vk k -> vb s r -> vb s (prod_after prods E c p k a r).
Proof.
  intros Hk Hr. destruct r as [[] s'| |]; cbn in *; auto. unfold prod_finish.
  destruct (p_token (prods p)); [now apply vb_ws_then|]. eapply vb_eq; [|apply Hk]. exact Hr.
Qed.
Lemma vk_capr c b n k : vk k -> vk (capr_cont E c b n k).
Proof. intros H s a. now apply vb_ws_then. Qed.
Lemma vk_nows c k : vk k -> vk (nows_cont E c k).
Proof. intros H s a. now apply vb_ws_then. Qed.
Lemma vk_depth k : vk k -> vk (depth_cont k).
Proof. intros H s a. eapply vb_eq; [|apply H]. reflexivity. Qed.
Lemma vk_push id sign b k : vk k -> vk (push_cont id sign b k).
Proof.
  intros H s a. cbn [push_cont k_fn]. unfold with_var. destruct (vget id (vars s)) as [[]|]; cbn; auto.
  eapply vb_eq; [|apply H]. cbn. apply vset_len.
Qed.
Lemma vb_rep_run c m item sep k a s vs : vk k -> vb s (rep_run E c m item sep k a s vs).
Proof.
  intros H. unfold rep_run. destruct (count_of vs) as [n|]; cbn; auto. apply vb_delim.
  - assert (Hm : forall n s0 acc, length (vars s0) = length (vars s) -> vb s (rep_more E c item sep n s0 acc)).
    { assert (Hb : forall r s0 ok, length (vars s0) = length (vars s) ->
        (forall s' v, length (vars s') = length (vars s) -> vb s (ok s' v)) -> vb s (delim (e_parse E c r final s0 []) ok)).
      { intros. apply vb_delim; auto. eapply vb_eq; [eassumption|]. apply (ve_parse E HE), vk_final. }
      clear n. induction n as [|n IH]; intros s0 acc H0; cbn [rep_more].
      - destruct sep as [sp|]; [|exact H0]. apply Hb; auto.
      - destruct sep as [[sr sk]|]; [apply Hb; auto; intros|]; apply Hb; auto. }
    destruct n; cbn [rep_loop]; [reflexivity|]. apply vb_delim; auto. apply (ve_parse E HE), vk_final.
  - intros s' v Hs. apply (vb_eq s s'); auto; apply H.
Qed.

Ltac vp := apply (ve_parse E HE), vk_final.
Ltac vf := apply (ve_finish E HE), vk_final.
Ltac kq := match goal with Hk : vk ?k |- vb ?s (k_fn ?k ?s' _) =>
  apply (vb_eq s s'); [solve [repeat match goal with |- context [if ?b then _ else _] => destruct b end; cbn; rewrite ?vset_len; congruence]|apply Hk] end.

Lemma vb_lst_item c item sep sb s acc : vb s (lst_item prods E c item sep sb s acc).
Proof.
  unfold lst_item. destruct (is_branch prods item).
  - destruct (e_try E item (vars s) (pos s)) as [[|] b| |]; try exact I.
    + apply vb_delim; [vf|]. intros. eapply vb_eq; [eassumption|]. apply (ve_lst E HE).
    + apply vb_cancel; auto. intros s' Hs. cbn. destruct sep as [[sr []]|]; cbn; now rewrite Hs.
  - apply vb_delim; [vp|]. intros. eapply vb_eq; [eassumption|]. apply (ve_lst E HE).
Qed.
Lemma vb_lst c item sep s acc : vb s (lst_step prods E c item sep s acc).
Proof.
  unfold lst_step. destruct sep as [[sr sk]|]; [|apply vb_lst_item].
  destruct (e_try E sr (vars s) (pos s)) as [[|] b| |]; try exact I.
  - apply vb_delim; [vf|]. intros. eapply vb_eq; [eassumption|]. apply vb_lst_item.
  - apply vb_cancel; auto. intros s' Hs. cbn. now rewrite Hs.
Qed.
Lemma vb_lstt_limit c t item sep lim b sp s acc : vb s (lstt_limit inp E c t item sep lim b sp s acc).
Proof.
  unfold lstt_limit. destruct (e_try E t (vars s) (pos s)) as [[|] tb| |]; try exact I; [reflexivity|].
  apply vb_cancel; auto. intros s' Hs. destruct (fst _ || _); [cbn; now rewrite Hs|].
  eapply vb_eq; [|apply (ve_lstt E HE)]. cbn. now rewrite Hs.
Qed.
Lemma vb_lstt c t item sep lim ls sp s acc : vb s (lstt_step inp prods E c t item sep lim ls sp s acc).
Proof.
  assert (Hgo : forall s' ls sp acc, length (vars s') = length (vars s) -> vb s (e_lstt E c t item sep lim ls sp s' acc)).
  { intros. eapply vb_eq; [eassumption|]. apply (ve_lstt E HE). }
  assert (Hc1 : forall r b s' ok, length (vars s') = length (vars s) ->
     (forall s', length (vars s') = length (vars s) -> vb s (ok s')) -> vb s (cancel_then E r b s' ok)).
  { intros. unfold cancel_then. destruct (e_cancel E r b); cbn; auto. }
  assert (Hlim : forall s' b sp, length (vars s') = length (vars s) -> vb s (lstt_limit inp E c t item sep lim b sp s' acc)).
  { intros. eapply vb_eq; [eassumption|]. apply vb_lstt_limit. }
  assert (Hpar : forall r s', length (vars s') = length (vars s) -> vb s (e_parse E c r final s' [])).
  { intros. eapply vb_eq; [eassumption|]. vp. }
  assert (Hfin : forall r b s', length (vars s') = length (vars s) -> vb s (e_finish E c r b final s' [])).
  { intros. eapply vb_eq; [eassumption|]. vf. }
  destruct ls; cbn [lstt_step].
  - destruct (e_try E t (vars s) (pos s)) as [[|] b| |]; try exact I; [reflexivity|]. apply Hc1; auto.
  - destruct sep as [[sr sk]|]; [|auto]. apply vb_orelse; auto. intros s' Hs.
    destruct (pos s =? pos s'); [|auto]. destruct (is_branch prods item); [|auto].
    destruct (e_try E item (vars s') (pos s')) as [[|] b| |]; try exact I; [|now apply Hc1; auto].
    apply vb_orelse; auto.
  - destruct sep as [[sr sk]|]; [|exact I].
    destruct (e_try E t (vars s) (pos s)) as [[|] b| |]; try exact I; [|auto]. destruct sk; reflexivity.
  - apply vb_orelse; auto.
  - auto.
  - destruct sep as [[sr sk]|].
    + destruct (e_try E sr (vars s) (pos s)) as [[|] sb| |]; try exact I; [|apply Hc1; auto].
      apply vb_orelse; auto.
    + destruct (is_branch prods item); [|auto].
      destruct (e_try E item (vars s) (pos s)) as [[|] ib| |]; try exact I; [|apply Hc1; auto].
      apply vb_orelse; auto.
Qed.
Lemma vb_comb c dup al n cnt h s acc : vb s (comb_step E c dup al n cnt h s acc).
Proof.
  unfold comb_step. destruct (n <=? cnt); [reflexivity|].
  assert (Hp : vb s (e_parse E c al final s [])) by vp.
  destruct (e_parse E c al final s []) as [[] s' m| |]; cbn in *; auto.
  destruct (nth i h false); eapply vb_eq; try apply (ve_comb E HE); auto.
Qed.
Lemma vb_flags c r t z s : vb s (flags_step E c r t z s).
Proof.
  unfold flags_step. destruct (e_try E r (vars s) (pos s)) as [[|] b| |]; try exact I.
  - apply vb_delim; [vf|]. intros s' v Hs. destruct v as [|[] []]; try exact I.
    eapply vb_eq; [|apply (ve_flags E HE)]. destruct (Z.land z z0 =? z0)%Z; exact Hs.
  - apply vb_cancel; auto. intros s' Hs. cbn. now rewrite Hs.
Qed.
Lemma vb_reco c lim al p k s a : vk k -> vb s (reco_step inp E c lim al p k s a).
Proof.
  intros Hk. unfold reco_step. destruct (e_try E al (vars s) (pos s)) as [[|] bs| |]; try exact I.
  - eapply vb_eq; [|now apply (ve_finish E HE)]. reflexivity.
  - apply vb_cancel; auto. intros s' Hs. destruct (fst _ || _); [cbn; now rewrite Hs|].
    eapply vb_eq; [|now apply (ve_reco E HE)]. cbn. now rewrite Hs.
Qed.
Lemma vb_p_lstt c t item sep lim k s a : vk k -> vb s (p_lstt E c t item sep lim k s a).
Proof.
  intros Hk. unfold p_lstt.
  apply vb_orelse; [vp| |]; intros; apply vb_delim;
    try (eapply vb_eq; [eassumption|apply (ve_lstt E HE)]); intros s2 v2 H2;
    destruct (e_try E t (vars s2) (pos s2)) as [[|] b| |]; try exact I;
    (eapply vb_eq; [eassumption|]; now apply (ve_finish E HE)).
Qed.
Lemma vb_recw c r k s a : vk k -> vb s (p_recw E c r k s a).
Proof.
  intros Hk. unfold p_recw.
  set (wsk := Cont false (fun s a => ws_then E c
            (Cont false (fun s a => mark (k_fn k (emit (ERFinish (pos s)) s) a))) s a)).
  assert (Hw : vk wsk).
  { intros s1 a1. cbn [wsk k_fn]. apply vb_ws_then; auto. intros s2 a2. cbn [k_fn]. apply vb_mark.
    eapply vb_eq; [|apply Hk]. reflexivity. }
  assert (Hx : vb s (match r with
            | Some r => e_parse E c r wsk (emit (ERStart (pos s)) s) a
            | None => k_fn wsk (emit (ERStart (pos s)) s) a end)).
  { destruct r; [eapply vb_eq; [|now apply (ve_parse E HE)]|eapply vb_eq; [|apply Hw]]; reflexivity. }
  unfold wsk in *. destruct r; destruct (_ : res) as [? ? []| |] in *; cbn in *; auto.
Qed.
Lemma vb_do_action c p s : vb s (do_action prods E c p s).
Proof.
  unfold do_action. set (s1 := emit _ _).
  assert (H : vb s (ws_then E c (Cont false (e_parse E c (p_rule (prods p)) final)) s1 [])).
  { apply vb_ws_then; auto. intros s' a. apply (ve_parse E HE), vk_final. }
  destruct (ws_then E c _ s1 []) as [[]| |]; cbn in *; auto.
Qed.
Lemma vb_p_prod c p k s a : vk k -> vb s (p_prod prods E c p k s a).
Proof.
  intros Hk. unfold p_prod. destruct (p_ws (prods p)); apply vb_prod_after; auto.
  - apply vb_ws_then; auto. intros s' a'. cbn [k_fn]. vp.
  - eapply vb_eq; [|vp]. reflexivity.
Qed.
Lemma vb_inc_depth c t s ok : (forall s', vars s' = vars s -> vb s (ok s')) -> vb s (inc_depth c t s ok).
Proof.
  intros H. unfold inc_depth. destruct (cx_max c =? 0); cbn; auto. destruct (cx_max c <=? depth s); cbn; auto.
Qed.
Lemma vb_create id v k s a : vk k -> vb s (p_create id v k s a).
Proof.
  intros Hk. unfold p_create. pose proof (Hk (setvars ((id, v) :: vars s) s) a) as H.
  destruct (k_fn k _ a); cbn [vb] in *; auto. apply unlink_len. cbn in H. lia.
Qed.

Ltac vv := first
  [ exact I | reflexivity | kq
  | apply vb_token_parse; intros | apply vb_ws_then; [cbn; congruence|]
  | apply vb_branch_or; [|intros] | apply vb_chc | apply vb_f_chc | apply vb_err | apply vb_p_lstt
  | apply vb_recw | apply vb_try_after | apply vb_p_prod | apply vb_prod_after | apply vb_create
  | apply vb_inc_depth; intros | apply vb_skip_ws; [reflexivity|]; intros
  | apply vb_delim; [|intros] | apply vb_cancel; [reflexivity|]; intros
  | match goal with
    | |- vb ?s (rep_run _ _ _ _ _ _ _ ?s' _) => apply (vb_eq s s'); [assumption|apply vb_rep_run]
    | |- vb ?s (p_err _ _ _ ?s') => apply (vb_eq s s'); [cbn; congruence|apply vb_err]
    | |- vb ?s (e_parse _ _ _ _ ?s' _) => apply (vb_eq s s'); [cbn; congruence|]; apply (ve_parse E HE)
    | |- vb ?s (e_finish _ _ _ _ _ ?s' _) => apply (vb_eq s s'); [cbn; congruence|]; apply (ve_finish E HE)
    | |- vb ?s (e_reco _ _ _ _ _ _ ?s' _) => apply (vb_eq s s'); [cbn; congruence|]; apply (ve_reco E HE)
    | |- vb ?s (e_lst _ _ _ _ ?s' _) => apply (vb_eq s s'); [assumption|]; apply (ve_lst E HE)
    | |- vb _ (e_comb _ _ _ _ _ _ _ _ _) => apply (ve_comb E HE)
    | |- vb _ (e_flags _ _ _ _ _ _) => apply (ve_flags E HE)
    | |- vb _ (sink_finish _ _ _ _) => unfold sink_finish
    | |- vb _ (with_var _ _ _) => unfold with_var
    | |- vb _ (tok_finish _ _ _ _ _ _ _) => unfold tok_finish
    | |- vb _ (p_find _ _ _ _ _) => unfold p_find
    | |- vb _ (p_seq _ ?c ?l ?k _ _) => unfold p_seq; apply (vk_seq c l k)
    | |- vb _ (p_nsep _ _ _ _ _ _ _) => unfold p_nsep
    | |- vb _ (p_try _ _ _ _ _ _ _ _) => unfold p_try
    | |- vb _ (pas_after _ _ _) => unfold pas_after
    | |- vb _ (let '_ := ?x in _) => destruct x
    | |- vb _ (match ?x with _ => _ end) => destruct x
    | |- vb _ (k_fn _ _ (match ?x with _ => _ end)) => destruct x
    | |- vb _ (k_fn _ (match ?x with _ => _ end) _) => destruct x
    | |- vk (seq_cont _ _ _ _) => apply vk_seq
    | |- vk (depth_cont _) => apply vk_depth
    | |- vk (nows_cont _ _ _) => apply vk_nows
    | |- vk (push_cont _ _ _ _) => apply vk_push
    | |- vk (capr_cont _ _ _ _ _) => apply vk_capr
    | |- vk (try_cont _ _ _ _) => apply vk_try_cont
    | |- vk final => apply vk_final
    | |- vk ?k => first [assumption | intros ? ?; cbn [k_fn]]
    end ].

Lemma vb_parse c r k s a : vk k -> vb s (parse_step inp prods E c r k s a).
Proof.
  intros Hk.
  assert (Hl : forall r, vb s (parse_step inp prods E c (RLoop r) k s a)).
  { intros r0. cbn [parse_step]. assert (Hp : vb s (e_parse E c r0 final s [])) by vp.
    destruct (e_parse E c r0 final s []) as [[] s'| |]; cbn [vb] in *; auto; repeat vv. }
  assert (Hs : forall p, vb s (parse_step inp prods E c (RSub p) k s a)).
  { intros p. cbn [parse_step].
    pose proof (vb_do_action (Cx (p_ws (prods p)) (cx_max c)) p (setvars [] s)) as Hp.
    destruct (do_action _ _ _ _ _) as [[] s'| |]; cbn [vb] in *; auto; repeat vv. }
  destruct r; try apply Hl; try apply Hs; cbn [parse_step]; repeat vv.
Qed.

Lemma vb_finish c r b k s a : vk k -> vb s (finish_step inp prods E c r b k s a).
Proof. intros Hk. destruct r; cbn [finish_step]; repeat vv. Qed.

End Step.

Lemma ve_eng n : ve (eng inp prods n).
Proof.
  induction n as [|n IH]; [exact ve_0|].
  split; intros; cbn [eng step e_parse e_finish e_reco e_lst e_lstt e_comb e_flags].
  - now apply vb_parse.
  - now apply vb_finish.
  - now apply vb_reco.
  - now apply vb_lst.
  - now apply vb_lstt.
  - now apply vb_comb.
  - now apply vb_flags.
Qed.

End Vars.
