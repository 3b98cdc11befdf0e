(** Laws of tokens, automatic whitespace, productions, recursion, context variables, captures. *)
From Verif Require Import Prelude RuleModel RuleSpec RuleDen RuleGood RuleMono RuleSem RuleLaws RuleLists
  RuleSeq RuleVars RuleInv RuleChain.
Close Scope N_scope.

Section Ctl.
Variable inp : list N.
Variable prods : nat -> production.
Notation eng := (eng inp prods).
Notation ev := (ev inp prods).
Notation Runs := (Runs inp prods).
Notation Tries := (Tries inp prods).
Notation Declines := (Declines inp prods).
Notation Finishes := (Finishes inp prods).
Notation Takes := (Takes inp prods).
Notation Matches := (Matches inp prods).

(** ** Whitespace *)
(** [w] matches again and again from [p], and no longer at [e]. *)
Inductive WsEnd (w : rule) : nat -> nat -> Prop :=
| ws_stop p e : Matches w p false e -> WsEnd w p p
| ws_more p e e' : Matches w p true e -> WsEnd w e e' -> WsEnd w p e'.

Definition SkipWs (w : rule) (s s' : st) : Prop :=
  let w := strip_ws w in
  if token_rule w then exists e, WsEnd w (pos s) e /\ s' = setpos e (emit (EToken KWhitespace (pos s) e) s)
  else exists vs t, Runs sub_cx (RLoop (chc_or w RBreak)) (sub_st (pos s)) (OTrue vs) t /\
         s' = setpos (pos t) (emit (EToken KWhitespace (pos s) (pos t)) (emits (rev (filter is_err (trace t))) s)).

(** Automatic whitespace skipping. *)
Definition Ws (c : cx) (s s' : st) : Prop :=
  match cx_ws c with
  | Some w => if wsf s then SkipWs w s s' else s' = s
  | None => s' = s
  end.

Lemma wsloop_ev w p e : ev (fun E => e_wsloop E w p) (TR true e) <-> WsEnd w p e.
Proof.
  split.
  - intros H. apply ev_at in H. destruct H as [n H]. revert p H. induction n as [|n IH]; intros p H; [discriminate|].
    cbn [RuleModel.eng step e_wsloop] in H. unfold wsloop_step in H.
    destruct (tmatch inp (eng n) w p) as [[|] e1| |] eqn:Hm; try discriminate; apply tmatch_Matches in Hm.
    + eapply ws_more; eauto.
    + injection H as <-. eapply ws_stop; eauto.
  - induction 1 as [p e Hm|p e e' Hm H IH]; apply ev_shift; cbn [step e_wsloop]; unfold wsloop_step.
    + destruct Hm as [N Hm]. exists N. intros n Hn. now rewrite Hm.
    + destruct Hm as [N Hm], IH as [M IH]. exists (N + M). intros n Hn. rewrite Hm by lia. apply IH. lia.
Qed.
Lemma wsloop_true n w : forall p ok e, e_wsloop (eng n) w p = TR ok e -> ok = true.
Proof.
  induction n as [|n IH]; intros p ok e H; [discriminate|]. cbn [RuleModel.eng step e_wsloop] in H. unfold wsloop_step in H.
  destruct (tmatch inp (eng n) w p) as [[|]| |]; try discriminate; [eauto|congruence].
Qed.
Lemma WsEnd_det w p e e' : WsEnd w p e -> WsEnd w p e' -> e = e'.
Proof.
  intros H1 H2. apply wsloop_ev in H1. apply wsloop_ev in H2. pose proof (ev_det _ _ _ _ _ H1 H2). congruence.
Qed.

Lemma skip_ws_fwd w s s' (J : engine -> st -> res) x : SkipWs w s s' -> ev (fun E => J E s') x ->
  ev (fun E => skip_ws E w s (J E)) x.
Proof.
  unfold SkipWs, skip_ws. intros H [N HJ]. destruct (token_rule (strip_ws w)).
  - destruct H as (e & H & ->). apply wsloop_ev in H. destruct H as [M H]. exists (N + M). intros n Hn.
    rewrite H by lia. apply HJ. lia.
  - destruct H as (vs & t & [m [M H]] & ->). exists (N + M). intros n Hn. rewrite H by lia. apply HJ. lia.
Qed.
Lemma skip_ws_bwd n w s J o s' m : skip_ws (eng n) w s J = Res o s' m ->
  (exists s1, SkipWs w s s1 /\ J s1 = Res o s' m) \/ o = OFalse.
Proof.
  unfold SkipWs, skip_ws. destruct (token_rule (strip_ws w)).
  - destruct (e_wsloop (eng n) (strip_ws w) (pos s)) as [ok e| |] eqn:He; try discriminate.
    intros H. left. pose proof (wsloop_true _ _ _ _ _ He) as ->.
    exists (setpos e (emit (EToken KWhitespace (pos s) e) s)). split; auto. exists e. split; auto.
    apply wsloop_ev. eapply (ev_of inp prods TNoFuel); eauto; [apply mono_wsloop|discriminate].
  - destruct (e_parse (eng n) sub_cx (RLoop (chc_or (strip_ws w) RBreak)) final (sub_st (pos s)) []) as [[] t m1| |] eqn:He;
      try discriminate.
    + intros [= <- _ _]. auto.
    + intros H. left. apply parse_Runs in He. eexists. split; [|exact H]. exists vs, t. auto.
Qed.

Lemma ws_then_bwd n c k s a vs s' m : k_nows k = false -> ws_then (eng n) c k s a = Res (OTrue vs) s' m ->
  exists s1, Ws c s s1 /\ k_fn k s1 a = Res (OTrue vs) s' m.
Proof.
  unfold ws_then, Ws. intros Hk. destruct (cx_ws c) as [w|]; rewrite ?Hk; cbn [orb]; [|eauto].
  destruct (wsf s); cbn [negb]; [|eauto].
  intros H. apply skip_ws_bwd in H. destruct H as [(s1 & H & H1)|H]; [eauto|discriminate].
Qed.
Lemma ws_then_fwd c (k : engine -> cont) s a s1 x : Ws c s s1 -> (forall E, k_nows (k E) = false) ->
  ev (fun E => k_fn (k E) s1 a) x -> ev (fun E => ws_then E c (k E) s a) x.
Proof.
  unfold ws_then, Ws. intros H Hk HJ. destruct (cx_ws c) as [w|].
  - destruct (wsf s); cbn [negb].
    + apply (skip_ws_fwd w s s1 (fun E s => k_fn (k E) s a)) in HJ; auto.
      destruct HJ as [N HJ]. exists N. intros n Hn. rewrite Hk. cbn [orb]. now apply HJ.
    + subst. destruct HJ as [N HJ]. exists N. intros n Hn. rewrite orb_true_r. now apply HJ.
  - now subst.
Qed.
Lemma ws_then_final c s a s1 : Ws c s s1 -> ev (fun E => ws_then E c final s a) (Res (OTrue a) s1 0).
Proof. intros H. apply (ws_then_fwd c (fun _ => final) s a s1); auto. now apply ev_const. Qed.

(** A token, and whitespace after it. *)
Definition tok_done (r : rule) (s : st) (e : nat) : st := setpos e (emit (EToken (tkind_of r) (pos s) e) s).

Lemma token_run c r s a vs s' :
  (exists m, ev (fun E => token_parse inp E r s (fun e s1 => ws_then E c final s1 (a e))) (Res (OTrue vs) s' m)) <->
  exists e, Matches r (pos s) true e /\ Ws c (tok_done r s e) s' /\ vs = a e.
Proof.
  split.
  - intros [m H]. apply ev_at in H. destruct H as [n H]. unfold token_parse in H.
    destruct (tmatch inp (eng n) r (pos s)) as [[|] e| |] eqn:Hm; try discriminate.
    apply ws_then_bwd in H; [|reflexivity]. destruct H as (s1 & Hw & [= <- <- _]).
    apply tmatch_Matches in Hm. exists e. auto.
  - intros (e & [N Hm] & Hw & ->). apply ws_then_final with (a := a e) in Hw. destruct Hw as [M Hw].
    exists 0. exists (N + M). intros n Hn. unfold token_parse. rewrite Hm by lia. apply Hw. lia.
Qed.

Definition is_token (r : rule) : Prop := match r with RTok _ | RTokOf _ _ => True | _ => False end.

Theorem token_runs c r s vs s' : is_token r ->
  (Runs c r s (OTrue vs) s' <-> exists e, Matches r (pos s) true e /\ Ws c (tok_done r s e) s' /\ vs = []).
Proof.
  intros Hr. rewrite Runs_shift, <- (token_run c r s (fun _ => []) vs s'). destruct r; try contradiction; reflexivity.
Qed.

(** capture(token): the lexeme is the matched text. *)
Theorem capture_runs c r s vs s' :
  Runs c (RCap r) s (OTrue vs) s' <->
  exists e, Matches r (pos s) true e /\ Ws c (tok_done r s e) s' /\ vs = [VLex (pos s) e].
Proof. rewrite Runs_shift, <- (token_run c r s (fun e => [VLex (pos s) e]) vs s'). reflexivity. Qed.

(** capture(rule): the rule goes on in [s1], where whitespace is not yet skipped; the lexeme
    covers everything up to there. *)
Theorem capture_rule_runs c r s vs s' : pos s <= length inp -> noesc r = true ->
  Runs c (RCapR r) s (OTrue vs) s' ->
  exists n l s1 v s2, is_den true (fun k a => e_parse (eng n) c r k s a) (DNext l s1 v) /\ T inp l s s1 /\
    Ws c s1 s2 /\ s' = unlinks l s2 /\ vs = VLex (pos s) (pos s1) :: v.
Proof.
  intros Hp Hr H. apply Runs_shift in H. destruct H as [m H]. apply ev_at in H. destruct H as [n H].
  cbn [parse_step length] in H.
  destruct (ge_parse _ _ _ (eng_good inp prods n) c r true s Hp) as (d & Hd & Hgd).
  rewrite (Hd _ []) in H by reflexivity. destruct d as [o s1|l s1 v| |]; cbn [apply] in H; try discriminate.
  - exfalso. set (k := Cont true (fun s _ => Res OFalse s 0)).
    pose proof (noesc_prov inp prods n c r k s [] Hr ltac:(intros; exact I)) as Hx.
    rewrite (Hd k []) in Hx by reflexivity. destruct o; cbn in Hx, H; try contradiction; discriminate.
  - cbn [capr_cont k_fn app firstn skipn] in H.
    destruct (ws_then (eng n) c final s1 (VLex (pos s) (pos s1) :: v)) as [o2 s2 m2| |] eqn:Hw;
      rewrite ?posts_Res, ?posts_NoFuel, ?posts_Crash in H; try discriminate.
    injection H as -> <- <-. apply ws_then_bwd in Hw; [|reflexivity]. destruct Hw as (s3 & Hw & [= <- <- _]).
    exists n, l, s1, v, s3. auto.
Qed.

(** ** Productions *)
Theorem prod_runs c p s vs s' :
  Runs c (RProd p) s (OTrue vs) s' <->
  exists s1 s2 v,
    match p_ws (prods p) with
    | Some _ => Ws (child_cx prods c p) (emit (EPStart p (pos s)) s) s1
    | None => s1 = emit (EPStart p (pos s)) s
    end /\
    Runs (child_cx prods c p) (p_rule (prods p)) s1 (OTrue v) s2 /\
    (if p_token (prods p) then Ws c (emit (EPFinish p (pos s2)) s2) s' else s' = emit (EPFinish p (pos s2)) s2) /\
    vs = [VProd p v].
Proof.
  rewrite Runs_shift. cbn [parse_step]. unfold p_prod. set (c' := child_cx prods c p). set (s0 := emit (EPStart p (pos s)) s).
  assert (Hafter : forall n r m, prod_after prods (eng n) c p final [] r = Res (OTrue vs) s' m ->
    exists v s2 m2, r = Res (OTrue v) s2 m2 /\
      (if p_token (prods p) then Ws c (emit (EPFinish p (pos s2)) s2) s' else s' = emit (EPFinish p (pos s2)) s2) /\
      vs = [VProd p v]).
  { intros n r m H. destruct r as [[] s2 m2| |]; cbn [prod_after] in H; try discriminate.
    exists vs0, s2, m2. split; auto. unfold prod_finish in H. destruct (p_token (prods p)).
    - apply ws_then_bwd in H; [|reflexivity]. destruct H as (s3 & Hw & [= <- <- _]). auto.
    - injection H as <- <- _. auto. }
  assert (Hfin : forall v s2, (if p_token (prods p) then Ws c (emit (EPFinish p (pos s2)) s2) s' else s' = emit (EPFinish p (pos s2)) s2) ->
    ev (fun E => prod_finish prods E c p final [] (emit (EPFinish p (pos s2)) s2) v) (Res (OTrue [VProd p v]) s' 0)).
  { intros v s2 H. unfold prod_finish. destruct (p_token (prods p)); [now apply ws_then_final|]. subst. now apply ev_const. }
  split.
  - intros [m H]. apply ev_at in H. destruct H as [n H]. destruct (p_ws (prods p)) as [w|] eqn:Hw.
    + apply Hafter in H. destruct H as (v & s2 & m2 & H & H1 & H2).
      apply ws_then_bwd in H; [|reflexivity]. destruct H as (s1 & Hs1 & H). cbn [k_fn] in H. apply parse_Runs in H.
      exists s1, s2, v. auto.
    + apply Hafter in H. destruct H as (v & s2 & m2 & H & H1 & H2). apply parse_Runs in H. exists s0, s2, v. auto.
  - intros (s1 & s2 & v & H1 & [m [M H2]] & H3 & ->). exists 0. apply (Hfin v) in H3. destruct H3 as [K H3].
    destruct (p_ws (prods p)) as [w|].
    + assert (Hx : ev (fun E => ws_then E c' (Cont false (fun s _ => e_parse E c' (p_rule (prods p)) final s [])) s0 []) (Res (OTrue v) s2 m)).
      { apply (ws_then_fwd c' (fun E => Cont false (fun s _ => e_parse E c' (p_rule (prods p)) final s [])) s0 [] s1); auto.
        now exists M. }
      destruct Hx as [N Hx]. exists (N + K). intros n Hn. rewrite Hx by lia. cbn [prod_after]. apply H3. lia.
    + subst. exists (M + K). intros n Hn. rewrite H2 by lia. cbn [prod_after]. apply H3. lia.
Qed.

(** ** Recursion *)
Theorem rec_limit c p t s o s' : cx_max c <> 0 -> cx_max c <= depth s ->
  (Runs c (RRec p t) s o s' <-> o = OFalse /\ s' = emit (EError t (pos s) (pos s)) s).
Proof.
  intros H0 Hd. rewrite Runs_shift. cbn [parse_step]. unfold inc_depth.
  destruct (Nat.eqb_spec (cx_max c) 0); [easy|]. destruct (Nat.leb_spec (cx_max c) (depth s)); [|lia]. split.
  - intros [m H']. apply ev_at in H'. destruct H' as [n' H']. injection H' as <- <- _. auto.
  - intros [-> ->]. exists 0. now apply ev_const.
Qed.

Lemma noesc_prod p : noesc (RProd p) = true.
Proof. reflexivity. Qed.

Theorem rec_runs c p t s o s' : pos s <= length inp -> depth s < cx_max c ->
  (Runs c (RRec p t) s o s' <->
   exists s1, Runs c (RProd p) (setdepth (S (depth s)) s) o s1 /\
     s' = match o with OTrue _ => setdepth (pred (depth s1)) s1 | _ => s1 end).
Proof.
  intros Hp Hd. rewrite Runs_shift. cbn [parse_step]. unfold inc_depth.
  destruct (Nat.eqb_spec (cx_max c) 0); [lia|]. destruct (Nat.leb_spec (cx_max c) (depth s)); [lia|].
  set (s0 := setdepth (S (depth s)) s).
  assert (Hp0 : pos s0 <= length inp) by exact Hp.
  assert (Hflat : flat (RProd p) = true) by reflexivity.
  split.
  - intros [m Hr]. apply ev_at in Hr. destruct Hr as [n' Hr].
    destruct (ge_parse _ _ _ (eng_good inp prods n') c (RProd p) false s0 Hp0) as (d & Hden & Hgd).
    rewrite (Hden _ []) in Hr by reflexivity. destruct d as [x sx|l s1 v| |]; cbn [apply] in Hr; try discriminate.
    + assert (Hst : Stops inp prods c (RProd p) s0 x sx) by now exists n'.
      pose proof (stops_noesc _ _ _ _ _ _ _ (noesc_prod p) Hst) as ->. injection Hr as <- <- _.
      exists sx. split; auto. exact (Stops_Runs _ _ _ _ _ _ _ Hst).
    + assert (Hgo : Goes inp prods c (RProd p) s0 l s1 v) by (split; [exact Hgd|now exists n']).
      pose proof (goes_flat _ _ _ _ _ _ _ _ (noesc_prod p) Hflat Hgo) as ->. cbn in Hr. injection Hr as <- <- _.
      exists s1. split; auto. exact (Goes_Runs _ _ _ _ _ _ _ _ Hgo).
  - intros (s1 & Hr & ->). apply runs_noesc in Hr; auto.
    destruct Hr as [[-> [n' Hst]]|(l & s2 & v & -> & Hgo & ->)].
    + exists 0. exists n'. intros n2 Hn. pose proof (Hst (depth_cont final) [] eq_refl) as Hx. cbn beta in Hx.
      destruct (mono_parse inp prods c (RProd p) (depth_cont final) s0 [] n' n2 Hn) as [Hm|Hm];
        rewrite Hx in Hm; cbn [apply sto] in Hm; [congruence|discriminate].
    + pose proof (goes_flat _ _ _ _ _ _ _ _ (noesc_prod p) Hflat Hgo) as ->. destruct Hgo as [_ [n' Hgo]].
      exists 0. exists n'. intros n2 Hn. pose proof (Hgo (depth_cont final) [] eq_refl) as Hx. cbn beta in Hx.
      destruct (mono_parse inp prods c (RProd p) (depth_cont final) s0 [] n' n2 Hn) as [Hm|Hm];
        rewrite Hx in Hm; cbn [apply app depth_cont k_fn final posts fold_left] in Hm; [|discriminate].
      rewrite <- Hm. reflexivity.
Qed.

(** ** Context variables *)
Theorem create_runs c id v rs s o s' :
  Runs c (RSeq (RCtxNew id v :: rs)) s o s' <->
  exists s1, Runs c (RSeq rs) (setvars ((id, v) :: vars s) s) o s1 /\ s' = unlink (length (vars s)) s1.
Proof.
  assert (Heq : forall n, parse_step inp prods (eng (S n)) c (RSeq (RCtxNew id v :: rs)) final s [] =
    p_create id v (seq_cont (eng (S n)) c rs final) s []) by reflexivity.
  rewrite Runs_shift. split.
  - intros [m [N H]]. specialize (H (S N) ltac:(lia)). cbn beta in H. rewrite Heq in H. unfold p_create in H.
    destruct (k_fn (seq_cont (eng (S N)) c rs final) (setvars ((id, v) :: vars s) s) []) as [o1 s1 m1| |] eqn:Hk; try discriminate.
    injection H as <- <- _. exists s1. split; auto.
    apply (parse_Runs _ _ (S (S N)) _ _ _ _ _ m1).
    change (k_fn (seq_cont (eng (S N)) c rs final) (setvars ((id, v) :: vars s) s) [] = Res o1 s1 m1). exact Hk.
  - intros (s1 & H & ->). apply Runs_shift in H. destruct H as [m [N H]]. exists m. exists (S N). intros n Hn.
    destruct n as [|n]; [lia|]. rewrite Heq. unfold p_create.
    specialize (H (S n) ltac:(lia)). cbn [parse_step] in H. unfold p_seq in H. cbn beta in H. rewrite H. reflexivity.
Qed.

Lemma as_same id l : forall h l', assigned h l l' -> In id h -> vget id l' = vget id l.
Proof.
  induction l as [|[i v] l IH]; intros h [|[i' v'] l']; cbn; try tauto.
  intros (-> & H1 & H2) Hin. destruct (Nat.eqb_spec i id) as [->|Hn]; [now rewrite H1|].
  eapply IH; eauto. now right.
Qed.

Lemma as_dom id l : forall h l', assigned h l l' -> vget id l = None -> vget id l' = None.
Proof.
  induction l as [|[i v] l IH]; intros h [|[i' v'] l']; cbn; try tauto.
  intros (-> & H1 & H2). destruct (Nat.eqb_spec i id); [discriminate|]. eauto.
Qed.


End Ctl.
