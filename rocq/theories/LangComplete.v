(** What the grammar describes is parsed by the engine, without an error. *)
From Verif Require Import Prelude RuleModel RuleSpec RuleDen RuleSem RuleLists LangSpec LangSound.
Close Scope N_scope.

(** For every fuel that is large enough. *)
Definition ev (P : nat -> Prop) : Prop := exists N, forall n, N <= n -> P n.
Lemma ev_0 (Q : nat -> Prop) : (forall n, Q (S n)) -> ev Q.
Proof. intros H. exists 1. intros [|n] Hn; [lia|auto]. Qed.
Lemma ev_S (P Q : nat -> Prop) : ev P -> (forall n, P n -> Q (S n)) -> ev Q.
Proof. intros [N HN] H. exists (S N). intros [|n] Hn; [lia|]. apply H, HN. lia. Qed.
Lemma ev_and (P Q : nat -> Prop) : ev P -> ev Q -> ev (fun n => P n /\ Q n).
Proof. intros [N HN] [M HM]. exists (N + M). intros n Hn. split; [apply HN|apply HM]; lia. Qed.
Lemma ev_imp (P Q : nat -> Prop) : ev P -> (forall n, P n -> Q n) -> ev Q.
Proof. intros [N HN] H. exists N. auto. Qed.
Lemma ev_S2 (P1 P2 Q : nat -> Prop) : ev P1 -> ev P2 -> (forall n, P1 n -> P2 n -> Q (S n)) -> ev Q.
Proof. intros H1 H2 H. eapply ev_S; [exact (ev_and _ _ H1 H2)|]. intros n []. auto. Qed.
Lemma ev_S3 (P1 P2 P3 Q : nat -> Prop) : ev P1 -> ev P2 -> ev P3 -> (forall n, P1 n -> P2 n -> P3 n -> Q (S n)) -> ev Q.
Proof. intros H1 H2 H3 H. eapply ev_S2; [exact (ev_and _ _ H1 H2)|exact H3|]. intros n []. auto. Qed.
Lemma ev_pred (P : nat -> Prop) : ev P -> ev (fun n => P (S n)).
Proof. intros [N HN]. exists N. intros n Hn. apply HN. lia. Qed.
Lemma ev_some (P : nat -> Prop) : ev P -> exists n, P (S n).
Proof. intros [N HN]. exists N. apply HN. lia. Qed.

Section Complete.
Variable inp : list N.
Variable prods : nat -> production.
Notation D := (Derives inp prods).
Notation Cond := (Cond inp prods).
Notation eng := (eng inp prods).

Definition TRY n r p ok b : Prop := forall vs, e_try (eng n) r vs p = BR ok b.
Definition CAN n r b es : Prop := e_cancel (eng n) r b = Some es.
Definition PAR n c d r p vs q es : Prop := forall s k a, pos s = p -> depth s = d -> wsf s = true -> k_nows k = false ->
  e_parse (eng n) c r k s a = k_fn k (go s q es) (a ++ vs).
Definition FIN n c d r b p vs q es : Prop := forall s k a, pos s = p -> depth s = d -> wsf s = true -> k_nows k = false ->
  e_finish (eng n) c r b k s a = k_fn k (go s q es) (a ++ vs).
Definition finishes c d r p vs q : Prop := forall b, ev (fun n => TRY n r p true b) ->
  exists es, clean es /\ ev (fun n => FIN n c d r b p vs q es).
Definition parses c d r p vs q : Prop := exists es, clean es /\ ev (fun n => PAR n c d r p vs q es).

(** ** Choices *)
Lemma t_chc_shift E rs : forall i vs p, t_chc E rs (S i) vs p =
  match t_chc E rs i vs p with BR ok (BChc j bs) => BR ok (BChc (S j) bs) | x => x end.
Proof.
  induction rs as [|r rs IH]; intros i vs p; cbn [t_chc]; [reflexivity|].
  destruct (e_try E r vs p) as [[|] b| |]; try reflexivity. rewrite IH.
  destruct (t_chc E rs (S i) vs p) as [ok []| |]; reflexivity.
Qed.
Lemma p_chc_hit E c u ls k a rs : forall i0 i bs s,
  t_chc E rs i0 (vars s) (pos s) = BR true (BChc (i0 + i) bs) ->
  p_chc E c u (rs ++ ls) k s a = f_chc E c rs i bs k s a.
Proof.
  induction rs as [|r rs IH]; intros i0 i bs s; cbn [t_chc p_chc f_chc app]; [discriminate|]. unfold branch_or.
  destruct (e_try E r (vars s) (pos s)) as [[|] b| |]; try discriminate.
  - intros [= Hi <-]. replace i with 0 by lia. reflexivity.
  - destruct (t_chc E rs (S i0) (vars s) (pos s)) as [ok b2| |] eqn:HE; try discriminate.
    assert (Hsh : exists j bs2, b2 = BChc j bs2 /\ S i0 <= j).
    { clear - HE. revert HE. generalize (S i0) as j0, ok, b2. clear.
      induction rs as [|r rs IH]; intros j0 ok b; cbn [t_chc]; [intros [= _ <-]; eauto|].
      destruct (e_try E r (vars s) (pos s)) as [[|] b1| |]; try discriminate; [intros [= _ <-]; eauto|].
      destruct (t_chc E rs (S j0) (vars s) (pos s)) as [ok2 b2| |] eqn:H2; try discriminate.
      destruct (IH _ _ _ H2) as (j & bs & -> & Hj). intros [= _ <-]. exists j, (b1 :: bs). split; [reflexivity|lia]. }
    destruct Hsh as (j & bs2 & -> & Hj). intros [= -> Hj2 <-]. destruct i as [|i]; [lia|]. cbn [hd tl].
    unfold cancel_then. destruct (e_cancel E r b) as [es|]; [|reflexivity].
    apply (IH (S i0)). cbn. rewrite HE. f_equal. f_equal. lia.
Qed.
Lemma p_chc_miss E c u ls k a rs : forall i0 i bs s,
  t_chc E rs i0 (vars s) (pos s) = BR false (BChc i bs) ->
  p_chc E c u (rs ++ ls) k s a =
  match c_chc E rs bs with Some es => p_chc E c u ls k (emits es s) a | None => NoFuel end.
Proof.
  induction rs as [|r rs IH]; intros i0 i bs s; cbn [t_chc p_chc c_chc app].
  - intros _. destruct s; reflexivity.
  - unfold branch_or. destruct (e_try E r (vars s) (pos s)) as [[|] b| |]; try discriminate.
    destruct (t_chc E rs (S i0) (vars s) (pos s)) as [ok b2| |] eqn:HE; try discriminate.
    assert (Hsh : exists j bs2, b2 = BChc j bs2).
    { clear - HE. revert HE. generalize (S i0) as j0, ok, b2. clear.
      induction rs as [|r rs IH]; intros j0 ok b; cbn [t_chc]; [intros [= _ <-]; eauto|].
      destruct (e_try E r (vars s) (pos s)) as [[|] b1| |]; try discriminate; [intros [= _ <-]; eauto|].
      destruct (t_chc E rs (S j0) (vars s) (pos s)) as [ok2 b2| |] eqn:H2; try discriminate.
      destruct (IH _ _ _ H2) as (j & bs & ->). intros [= _ <-]. eauto. }
    destruct Hsh as (j & bs2 & ->). intros [= -> -> <-]. cbn [hd tl].
    unfold cancel_then. destruct (e_cancel E r b) as [es|]; [|reflexivity].
    rewrite (IH (S i0) i bs2) by exact HE. destruct (c_chc E rs bs2) as [es2|]; [|reflexivity].
    f_equal. unfold emits. cbn. now rewrite rev_app_distr, app_assoc.
Qed.

(** ** Conditions *)
Lemma Ahead_search f p ok : Ahead inp f p ok -> exists b e, search_from inp f p = (ok, b, e).
Proof.
  unfold search_from. induction 1 as [p ok e H|p ok H Hl HA (b & e & IH)|p H Hl].
  - exists p, e. destruct (length inp - p); cbn [search]; rewrite H; destruct ok; reflexivity.
  - exists b, e. replace (length inp - p) with (S (length inp - S p)) by lia. cbn [search]. now rewrite H.
  - exists p, p. replace (length inp - p) with 0 by lia. cbn [search]. now rewrite H.
Qed.
Lemma cond_runs r p ok : Cond r p ok -> exists b, ev (fun n => TRY n r p ok b) /\
  (ok = false -> exists es, ev (fun n => CAN n r b es)).
Proof.
  induction 1.
  - eexists. split; [apply ev_0; intros n vs; reflexivity|]. intros _. exists []. now apply ev_0.
  - eexists. split; [apply ev_0; intros n vs; reflexivity|]. intros _. exists []. now apply ev_0.
  - destruct IHCond as (b0 & H1 & H2). exists b0. split; [eapply ev_S; [exact H1|]; intros n Hn vs; apply Hn|].
    intros Hok. destruct (H2 Hok) as (es & He). exists es. eapply ev_S; [exact He|]. intros n Hn. exact Hn.
  - eexists. split; [apply ev_0; intros n vs; reflexivity|]. discriminate.
  - eexists. split; [apply ev_0; intros n vs; reflexivity|]. discriminate.
  - eexists. split; [apply ev_0; intros n vs; reflexivity|]. discriminate.
  - eexists. split; [apply ev_0; intros n vs; reflexivity|]. intros _. exists []. now apply ev_0.
  - destruct IHCond as (b0 & H1 & _). exists (BChc 0 [b0]). split; [|discriminate]. eapply ev_S; [exact H1|].
    intros n Hn vs. cbn [RuleModel.eng step e_try try_step t_chc]. now rewrite Hn.
  - destruct IHCond1 as (b0 & H1 & H2). destruct (H2 eq_refl) as (es1 & Hc1). destruct IHCond2 as (b1 & H3 & H4).
    destruct (ev_some _ H3) as (m & Hm). specialize (Hm []). cbn [RuleModel.eng step e_try try_step] in Hm.
    destruct (t_chc_shape inp prods _ _ _ _ _ _ _ Hm) as (j & bs & -> & _). clear Hm.
    exists (BChc (S j) (b0 :: bs)). split.
    + eapply ev_S2; [exact H1|exact (ev_pred _ H3)|]. intros n Hn1 Hn2 vs.
      cbn [RuleModel.eng step e_try try_step t_chc]. rewrite Hn1, t_chc_shift. specialize (Hn2 vs).
      cbn [RuleModel.eng step e_try try_step] in Hn2. now rewrite Hn2.
    + intros Hok. destruct (H4 Hok) as (es2 & Hc2). exists (es1 ++ es2). eapply ev_S2; [exact Hc1|exact (ev_pred _ Hc2)|].
      unfold CAN. intros n Hn1 Hn2. cbn [RuleModel.eng step e_cancel cancel_step b_alts c_chc hd tl] in *. now rewrite Hn1, Hn2.
  - destruct IHCond as (b0 & H1 & H2). exists b0. split; [eapply ev_S; [exact H1|]; intros n Hn vs; apply Hn|].
    intros Hok. destruct (H2 Hok) as (es & He). exists es. eapply ev_S; [exact He|]. intros n Hn. exact Hn.
  - destruct IHCond as (b0 & H1 & H2). exists b0. split; [eapply ev_S; [exact H1|]; intros n Hn vs; apply Hn|].
    intros Hok. destruct (H2 Hok) as (es & He). exists es. eapply ev_S; [exact He|]. intros n Hn. exact Hn.
  - destruct IHCond as (b0 & H1 & H2). exists b0. split; [eapply ev_S; [exact H1|]; intros n Hn vs; apply Hn|].
    intros Hok. destruct (H2 Hok) as (es & He). exists es. eapply ev_S; [exact He|]. intros n Hn. exact Hn.
  - destruct IHCond as (b0 & H1 & H2). exists b0. split; [eapply ev_S; [exact H1|]; intros n Hn vs; apply Hn|].
    intros Hok. destruct (H2 Hok) as (es & He). exists es. eapply ev_S; [exact He|]. intros n Hn. exact Hn.
  - destruct IHCond as (b0 & H1 & H2). exists b0. split; [eapply ev_S; [exact H1|]; intros n Hn vs; apply Hn|].
    intros Hok. destruct (H2 Hok) as (es & He). exists es. eapply ev_S; [exact He|]. intros n Hn. exact Hn.
  - destruct IHCond as (b0 & H1 & H2). exists (BAt p b0). split.
    + eapply ev_S; [exact H1|]. intros n Hn vs. cbn [RuleModel.eng step e_try try_step]. now rewrite Hn.
    + intros Hok. destruct (H2 Hok) as (es & He). eexists. eapply ev_S; [exact He|]. unfold CAN. intros n Hn.
      cbn [RuleModel.eng step e_cancel cancel_step b_in b_at]. rewrite Hn. reflexivity.
  - destruct IHCond as (b0 & H1 & H2). exists b0. split; [eapply ev_S; [exact H1|]; intros n Hn vs; apply Hn|].
    intros Hok. destruct (H2 Hok) as (es & He). exists es. eapply ev_S; [exact He|]. intros n Hn. exact Hn.
  - eexists. split; [apply ev_0; intros n vs; reflexivity|]. intros _. eexists. apply ev_0. intros n. reflexivity.
  - eexists. split; [apply ev_0; intros n vs; reflexivity|]. intros _. eexists. apply ev_0. intros n. reflexivity.
  - destruct (Ahead_search _ _ _ H) as (b & e & HS). exists (BRange p e). split.
    + apply ev_0. intros n vs. cbn [RuleModel.eng step e_try try_step]. now rewrite HS.
    + intros _. eexists. apply ev_0. intros n. reflexivity.
  - destruct IHCond as (b0 & H1 & H2). exists b0. split; [eapply ev_S; [exact H1|]; intros k Hk vs; apply Hk|].
    intros Hok. destruct (H2 Hok) as (es & He). exists es. eapply ev_S; [exact He|]. intros k Hk. exact Hk.
  - exists (BEnd (snd (tk_try t inp p))). split; [|intros _; exists []; now apply ev_0].
    apply ev_0. intros n vs. cbn [RuleModel.eng step e_try try_step tmatch]. unfold symbol_at.
    destruct (tk_try t inp p) as [[|] e]; reflexivity.
  - eexists. split; [apply ev_0; intros n vs; reflexivity|]. intros _. exists []. now apply ev_0.
Qed.

(** What [Derives] means for the engine. *)
Definition runs (c : cx) (d : nat) (j : job) (p : nat) (vs : list val) (q : nat) : Prop :=
  match j with
  | JR _ (RChc rs) => Cond (RChc rs) p true /\ finishes c d (RChc rs) p vs q
  | JR false r => parses c d r p vs q
  | JR true r => finishes c d r p vs q
  | JS rs => exists es, clean es /\ ev (fun n => forall s k a, pos s = p -> depth s = d -> wsf s = true -> k_nows k = false ->
      k_fn (seq_cont (eng n) c rs k) s a = k_fn k (go s q es) (a ++ vs))
  | JW => exists es, clean es /\ ev (fun n => forall s k a, pos s = p -> wsf s = true -> k_nows k = false ->
      ws_then (eng n) c k s a = k_fn k (go s q es) a)
  | JL b => exists es es2, clean es /\ clean es2 /\
      ev (fun n => PAR n c d (RWhile b) p [] q es) /\
      ev (fun n => forall s k a, pos s = p -> depth s = d -> wsf s = true -> k_nows k = false ->
        e_parse (eng n) c (RLoop (chc_or b RBreak)) k s a = k_fn k (go s q es2) a) /\
      (forall t, b = RTok t -> cx_ws c = None -> ev (fun n => e_wsloop (eng n) b p = TR true q))
  | JM i sep => forall l, vs = [VSink l] -> exists es, clean es /\
      ev (fun n => forall s acc, pos s = p -> depth s = d -> wsf s = true ->
        e_lst (eng n) c i sep s acc = Res (OTrue [VSink (acc ++ l)]) (go s q es) 0)
  | JT te i sep => forall l, vs = [VSink l] -> exists es, clean es /\
      ev (fun n => forall lim sp s acc, pos s = p -> depth s = d -> wsf s = true ->
        e_lstt (eng n) c te i sep lim LTerm sp s acc = Res (OTrue [VSink (acc ++ l)]) (go s q es) 0)
  | JN m i sep => forall l, vs = [VSink l] -> exists es, clean es /\
      ev (fun n => forall s acc, pos s = p -> depth s = d -> wsf s = true ->
        rep_more (eng n) c i sep m s acc = Res (OTrue [VSink (acc ++ l)]) (go s q es) 0)
  | JF r z => exists es, clean es /\
      ev (fun n => forall t s, pos s = p -> depth s = d -> wsf s = true ->
        e_flags (eng n) c r t z s = Res (OTrue vs) (go s q es) 0)
  | JO rs => exists es, clean es /\
      ev (fun n => forall s k a, pos s = p -> depth s = d -> wsf s = true -> k_nows k = false ->
        e_parse (eng n) c (RLoop (RChc rs)) k s a = k_fn k (go s q es) a)
  | JC els rs used => forall l, vs = [VSink l] -> sized els rs -> exists es, clean es /\
      ev (fun n => forall dup h s acc, agree rs h used -> pos s = p -> depth s = d -> wsf s = true ->
        e_comb (eng n) c dup (comb_choice els rs) (length rs) (length used) h s acc = Res (OTrue [VSink (acc ++ l)]) (go s q es) 0)
  end.

Lemma runs_fin c d r p vs q : runs c d (JR true r) p vs q -> finishes c d r p vs q.
Proof. destruct r; cbn; tauto. Qed.
Lemma runs_par c d r p vs q : runs c d (JR false r) p vs q -> parses c d r p vs q.
Proof.
  destruct r; cbn; try tauto. intros [HC HF]. apply cond_runs in HC. destruct HC as (b & Hb & _).
  destruct (HF b Hb) as (es & Hcl & He). exists es. split; [exact Hcl|].
  destruct (ev_some _ Hb) as (m & Hm). specialize (Hm []). cbn [RuleModel.eng step e_try try_step] in Hm.
  destruct (t_chc_shape inp prods _ _ _ _ _ _ _ Hm) as (j & bs & -> & _). clear Hm.
  eapply ev_S2; [exact (ev_pred _ Hb)|exact (ev_pred _ He)|]. intros n Hn1 Hn2 s k a Hp Hd Hw Hk.
  specialize (Hn1 (vars s)). specialize (Hn2 s k a Hp Hd Hw Hk). cbn [RuleModel.eng step e_parse parse_step e_try try_step e_finish finish_step] in *.
  rewrite <- Hn2. generalize (existsb unconditional rs). intros u. rewrite <- (app_nil_r rs) at 1. apply (p_chc_hit _ _ _ _ _ _ _ 0). rewrite Hp. exact Hn1.
Qed.
Lemma parses_runs c d r p vs q : match r with RChc _ => False | _ => True end -> parses c d r p vs q -> runs c d (JR false r) p vs q.
Proof. destruct r; cbn; tauto. Qed.

Lemma go_at s p : pos s = p -> go s p [] = s.
Proof. intros <-. apply go_id. Qed.
Lemma ev_00 (Q : nat -> Prop) : (forall n, Q (S (S n))) -> ev Q.
Proof. intros H. exists 2. intros [|[|n]] Hn; [lia|lia|auto]. Qed.
Lemma nobranch r p b c d vs q : (forall n, try_step inp prods (eng n) r [] p = BCrash) ->
  ev (fun n => TRY n r p true b) -> exists es, clean es /\ ev (fun n => FIN n c d r b p vs q es).
Proof. intros H1 H2. exfalso. destruct (ev_some _ H2) as (m & Hm). specialize (Hm []). change (try_step inp prods (eng m) r [] p = BR true b) in Hm. rewrite H1 in Hm. discriminate. Qed.

Lemma yes c d b p vs q : Cond b p true -> runs c d (JR true b) p vs q ->
  exists b0 es, clean es /\ ev (fun n => TRY n b p true b0) /\ ev (fun n => FIN n c d b b0 p vs q es).
Proof.
  intros HC HF. apply runs_fin in HF. apply cond_runs in HC. destruct HC as (b0 & Hb & _). destruct (HF b0 Hb) as (es & Hcl & He).
  exists b0, es. auto.
Qed.
Lemma no b p : Cond b p false -> exists b0 es, clean (rev es) /\ ev (fun n => TRY n b p false b0) /\ ev (fun n => CAN n b b0 es).
Proof.
  intros HC. apply cond_runs in HC. destruct HC as (b0 & Hb & H). destruct (H eq_refl) as (es & He). exists b0, es.
  split; [|auto]. destruct (ev_some _ He) as (m & Hm). eapply cancel_clean. exact Hm.
Qed.
Lemma can n r b es s f : CAN n r b es -> cancel_then (eng n) r b s f = f (go s (pos s) (rev es)).
Proof. intros H. unfold cancel_then. rewrite H. reflexivity. Qed.

Definition alts (b : rule) : list rule := match b with RChc l => l | _ => [b] end.
Lemma chc_or_alts b x : chc_or b x = RChc (alts b ++ [x]).
Proof. destruct b; reflexivity. Qed.
Lemma cond_alts b p ok : Cond b p ok -> Cond (RChc (alts b)) p ok.
Proof.
  intros H. assert (H1 : Cond (RChc [b]) p ok) by (destruct ok; [now apply C_chc_hit|apply C_chc_miss; [assumption|constructor]]).
  destruct b; try exact H1. exact H.
Qed.
Lemma fin_hit c d r rs p vs q : Cond r p true -> finishes c d r p vs q -> finishes c d (RChc (r :: rs)) p vs q.
Proof.
  intros HC HF b Hb. apply cond_runs in HC. destruct HC as (b0 & H0 & _). destruct (HF b0 H0) as (es & Hcl & He).
  destruct (ev_some _ (ev_and _ _ H0 (ev_pred _ Hb))) as (m & Hm0 & Hm). specialize (Hm []). specialize (Hm0 []).
  cbn [RuleModel.eng] in Hm. unfold step at 1 in Hm. cbn [e_try try_step t_chc] in Hm.
  change (step inp prods (eng m)) with (eng (S m)) in Hm. rewrite Hm0 in Hm. injection Hm as <-.
  exists es. split; [exact Hcl|]. eapply ev_S; [exact He|]. intros n Hn. exact Hn.
Qed.
Lemma fin_alts c d b p vs q : Cond b p true -> finishes c d b p vs q -> finishes c d (RChc (alts b)) p vs q.
Proof. intros HC HF. destruct b; try (apply fin_hit; assumption). exact HF. Qed.

Lemma loop_break b p : Cond b p false -> exists es, clean es /\ ev (fun n => forall c s, pos s = p ->
  e_parse (eng n) c (chc_or b RBreak) final s [] = Res OBreak (go s p es) 0).
Proof.
  intros HC. apply cond_alts in HC. destruct (no _ _ HC) as (b0 & es & Hcl & H1 & H2). exists (rev es). split; [exact Hcl|].
  destruct (ev_some _ H1) as (m & Hm). specialize (Hm []). cbn [RuleModel.eng step e_try try_step] in Hm.
  destruct (t_chc_shape inp prods _ _ _ _ _ _ _ Hm) as (j & bs & -> & _). clear Hm. rewrite chc_or_alts.
  assert (H3 : ev (fun n => exists m, n = S (S m))) by (apply ev_00; eauto).
  eapply ev_S3; [exact (ev_pred _ H1)|exact (ev_pred _ H2)|exact H3|]. unfold CAN. intros n Hn1 Hn2 Hn3 c s Hp.
  specialize (Hn1 (vars s)). cbn [RuleModel.eng step e_parse parse_step e_try try_step e_cancel cancel_step b_alts] in *.
  rewrite (p_chc_miss _ _ _ _ _ _ _ 0 j bs) by (rewrite Hp; exact Hn1). rewrite Hn2. destruct Hn3 as (m3 & ->).
  subst p. reflexivity.
Qed.
Lemma loop_more c d b p vs q : Cond b p true -> finishes c d b p vs q -> exists es, clean es /\
  ev (fun n => forall s, pos s = p -> depth s = d -> wsf s = true ->
    e_parse (eng n) c (chc_or b RBreak) final s [] = Res (OTrue vs) (go s q es) 0).
Proof.
  intros HC HF. apply fin_alts in HF; [|exact HC]. apply cond_alts in HC. apply cond_runs in HC. destruct HC as (b0 & H1 & _).
  destruct (HF b0 H1) as (es & Hcl & H2). exists es. split; [exact Hcl|].
  destruct (ev_some _ H1) as (m & Hm). specialize (Hm []). cbn [RuleModel.eng step e_try try_step] in Hm.
  destruct (t_chc_shape inp prods _ _ _ _ _ _ _ Hm) as (j & bs & -> & _). clear Hm. rewrite chc_or_alts.
  eapply ev_S2; [exact (ev_pred _ H1)|exact (ev_pred _ H2)|]. intros n Hn1 Hn2 s Hp Hd Hw.
  specialize (Hn1 (vars s)). specialize (Hn2 s final [] Hp Hd Hw eq_refl).
  cbn [RuleModel.eng step e_parse parse_step e_try try_step e_finish finish_step] in *.
  rewrite (p_chc_hit _ _ _ _ _ _ _ 0 j bs) by (rewrite Hp; exact Hn1). exact Hn2.
Qed.
(** ** Combinations *)
Lemma fin_parts c d r p v q : finishes c d r p v q -> finishes c d (RBr (head_of r) (tail_of r)) p v q.
Proof.
  assert (G : forall r0, finishes c d r0 p v q -> finishes c d (RBr r0 []) p v q).
  { intros r0 H b Hb. destruct (H b (ev_pred _ Hb)) as (es & Hcl & He). exists es. split; [exact Hcl|]. eapply ev_S; [exact He|].
    intros n Hn s k a Hp Hd Hw Hk. cbn [RuleModel.eng step e_finish finish_step seq_cont]. now apply Hn. }
  intros H. destruct r; try exact H; apply G; exact H.
Qed.
Lemma par_parts c d r p v q : parses c d r p v q -> parses c d (RBr (head_of r) (tail_of r)) p v q.
Proof.
  assert (G : forall r0, parses c d r0 p v q -> parses c d (RBr r0 []) p v q).
  { intros r0 (es & Hcl & He). exists es. split; [exact Hcl|]. eapply ev_S; [exact He|].
    intros n Hn s k a Hp Hd Hw Hk. cbn [RuleModel.eng step e_parse parse_step]. unfold p_seq. cbn [seq_cont k_fn]. now apply Hn. }
  intros H. destruct r; try exact H; apply G; exact H.
Qed.
Lemma one_item c d r p v q : parses c d r p v q -> exists es, clean es /\ ev (fun n => forall s, pos s = p -> depth s = d -> wsf s = true ->
  e_parse (eng n) c (comb_choice None [r]) final s [] = Res (OItem 0 v) (go s q es) 0).
Proof.
  intros H. apply par_parts in H. destruct H as (es & Hcl & He). exists es. split; [exact Hcl|]. rewrite comb_choice_one.
  assert (H3 : ev (fun n => exists m, n = S m)) by (apply ev_0; eauto).
  eapply ev_S2; [exact (ev_pred _ He)|exact H3|]. intros n Hn (m & ->) s Hp Hd Hw.
  specialize (Hn s (seq_cont (eng (S m)) c [RCombIt 0] final) [] Hp Hd Hw eq_refl).
  change (eng (S (S m))) with (step inp prods (eng (S m))) in Hn |- *.
  change (e_parse (step inp prods (eng (S m)))) with (parse_step inp prods (eng (S m))) in Hn |- *. cbn [parse_step] in Hn |- *.
  unfold p_seq in *. rewrite app_comm_cons, seq_cont_app, Hn. reflexivity.
Qed.
Lemma pick_item c d rs p o : Pick inp prods rs p o -> forall i r v q, o = Some i -> nth_error rs i = Some r -> finishes c d r p v q ->
  exists es, clean es /\ ev (fun n => forall els i0 u s, pos s = p -> depth s = d -> wsf s = true ->
    p_chc (eng n) c u (comb_alts i0 rs ++ elsl els) final s [] = Res (OItem (i0 + i) v) (go s q es) 0).
Proof.
  induction 1 as [|r rs p HC|r rs p o HC HP IH]; intros i r0 v q Ho Hn HF; [discriminate| |].
  - injection Ho as <-. injection Hn as ->. apply fin_parts in HF. apply Cond_parts in HC. apply cond_runs in HC.
    destruct HC as (b & Hb & _). destruct (HF b Hb) as (es & Hcl & He). exists es. split; [exact Hcl|].
    assert (H3 : ev (fun n => exists m, n = S m)) by (apply ev_0; eauto).
    eapply ev_S3; [exact (ev_pred _ Hb)|exact (ev_pred _ He)|exact H3|].
    intros n Hn1 Hn2 (m & ->) els i0 u s Hp Hd Hw. rewrite comb_alts_cons. cbn [app p_chc]. unfold branch_or.
    rewrite (try_br inp prods _ _ _ (tail_of r0)), Hp, Hn1.
    specialize (Hn2 s (seq_cont (eng (S m)) c [RCombIt i0] final) [] Hp Hd Hw eq_refl).
    change (eng (S (S m))) with (step inp prods (eng (S m))) in Hn2 |- *.
    change (e_finish (step inp prods (eng (S m)))) with (finish_step inp prods (eng (S m))) in Hn2 |- *. cbn [finish_step] in Hn2 |- *.
    rewrite seq_cont_app, Hn2. cbn [app seq_cont k_fn]. cbn [RuleModel.eng step e_parse parse_step]. now rewrite Nat.add_0_r.
  - destruct o as [j|]; [|discriminate]. injection Ho as <-. cbn [nth_error] in Hn.
    destruct (IH j r0 v q eq_refl Hn HF) as (es & Hcl & He). apply Cond_parts in HC. destruct (no _ _ HC) as (b & es1 & Hc1 & H1 & H2).
    exists (es ++ rev es1). split; [now apply clean_app|]. eapply ev_imp; [exact (ev_and _ _ H1 (ev_and _ _ H2 He))|].
    intros n (Hn1 & Hn2 & Hn3) els i0 u s Hp Hd Hw. rewrite comb_alts_cons. cbn [app p_chc]. unfold branch_or.
    rewrite (try_br inp prods _ _ _ (tail_of r)), Hp, Hn1. unfold CAN in Hn2. unfold cancel_then.
    rewrite (cancel_br inp prods _ _ _ (tail_of r)), Hn2. change (emits es1 s) with (go s (pos s) (rev es1)).
    rewrite Hn3 by auto. rewrite go_go. now replace (i0 + S j) with (S i0 + j) by lia.
Qed.
Lemma pick_stop c rs p o : Pick inp prods rs p o -> o = None -> exists es, clean es /\ ev (fun n => forall i0 u s, pos s = p ->
  p_chc (eng n) c u (comb_alts i0 rs ++ [RBreak]) final s [] = Res OBreak (go s p es) 0).
Proof.
  induction 1 as [|r rs p HC|r rs p o HC HP IH]; intros Ho; [|discriminate|].
  - exists []. split; [reflexivity|]. apply ev_00. intros n i0 u s Hp. rewrite go_at by exact Hp. reflexivity.
  - destruct o as [j|]; [discriminate|].
    destruct (IH eq_refl) as (es & Hcl & He). apply Cond_parts in HC. destruct (no _ _ HC) as (b & es1 & Hc1 & H1 & H2).
    exists (es ++ rev es1). split; [now apply clean_app|]. eapply ev_imp; [exact (ev_and _ _ H1 (ev_and _ _ H2 He))|].
    intros n (Hn1 & Hn2 & Hn3) i0 u s Hp. rewrite comb_alts_cons. cbn [app p_chc]. unfold branch_or.
    rewrite (try_br inp prods _ _ _ (tail_of r)), Hp, Hn1. unfold CAN in Hn2. unfold cancel_then.
    rewrite (cancel_br inp prods _ _ _ (tail_of r)), Hn2. change (emits es1 s) with (go s (pos s) (rev es1)).
    rewrite Hn3 by auto. now rewrite go_go.
Qed.
(** ** Loops *)
Lemma pick_cond rs p o : Pick inp prods rs p o -> forall i r, o = Some i -> nth_error rs i = Some r -> Cond r p true.
Proof.
  induction 1 as [|r rs p HC|r rs p o HC HP IH]; intros i r0 Ho Hn; [discriminate| |].
  - injection Ho as <-. injection Hn as <-. exact HC.
  - destruct o as [j|]; [|discriminate]. injection Ho as <-. eauto.
Qed.
Lemma pick_runs c rs p o : Pick inp prods rs p o -> forall i r b, o = Some i -> nth_error rs i = Some r -> ev (fun n => TRY n r p true b) ->
  exists es, clean es /\ ev (fun n => forall u s, pos s = p -> p_chc (eng n) c u rs final s [] = e_finish (eng n) c r b final (go s p es) []).
Proof.
  induction 1 as [|r rs p HC|r rs p o HC HP IH]; intros i r0 b Ho Hn Hb; [discriminate| |].
  - injection Ho as <-. injection Hn as ->. exists []. split; [reflexivity|]. eapply ev_imp; [exact Hb|].
    intros n H1 u s Hp. cbn [p_chc]. unfold branch_or. rewrite Hp, H1. now rewrite go_at.
  - destruct o as [j|]; [|discriminate]. injection Ho as <-. cbn [nth_error] in Hn.
    destruct (IH j r0 b eq_refl Hn Hb) as (es & Hcl & He). destruct (no _ _ HC) as (b1 & es1 & Hc1 & H1 & H2).
    exists (es ++ rev es1). split; [now apply clean_app|]. eapply ev_imp; [exact (ev_and _ _ H1 (ev_and _ _ H2 He))|].
    intros n (Hn1 & Hn2 & Hn3) u s Hp. cbn [p_chc]. unfold branch_or. rewrite Hp, Hn1, (can _ _ _ _ _ _ Hn2).
    rewrite Hn3 by exact Hp. now rewrite go_go.
Qed.
Lemma turn_more c d rs i r p v q : Pick inp prods rs p (Some i) -> nth_error rs i = Some r -> finishes c d r p v q ->
  exists es, clean es /\ ev (fun n => forall s, pos s = p -> depth s = d -> wsf s = true ->
    e_parse (eng n) c (RChc rs) final s [] = Res (OTrue v) (go s q es) 0).
Proof.
  intros HP Hn HF. destruct (cond_runs _ _ _ (pick_cond _ _ _ HP _ _ eq_refl Hn)) as (b & Hb & _).
  destruct (HF b Hb) as (es & Hcl & He). destruct (pick_runs c _ _ _ HP _ _ b eq_refl Hn Hb) as (es1 & Hc1 & H1).
  exists (es ++ es1). split; [now apply clean_app|]. eapply ev_S2; [exact H1|exact He|]. intros n Hn1 Hn2 s Hp Hd Hw.
  cbn [RuleModel.eng step e_parse parse_step]. rewrite Hn1 by exact Hp. rewrite Hn2 by auto. now rewrite go_go.
Qed.
Lemma turn_break c d rs i r r' p v q : Pick inp prods rs p (Some i) -> nth_error rs i = Some r -> before_break r = Some r' ->
  D c d (JR true r') p v q -> finishes c d r' p v q ->
  exists es, clean es /\ ev (fun n => forall s, pos s = p -> depth s = d -> wsf s = true ->
    e_parse (eng n) c (RChc rs) final s [] = Res OBreak (go s q es) 0).
Proof.
  intros HP Hn Hbk HD HF. pose proof (pick_cond _ _ _ HP _ _ eq_refl Hn) as HC.
  destruct (cond_runs _ _ _ HC) as (b & Hb & _).
  destruct (pick_runs c _ _ _ HP _ _ b eq_refl Hn Hb) as (es1 & Hc1 & H1).
  destruct (break_shape _ _ Hbk) as [[-> ->]|(h & t & -> & ->)].
  - inversion HD; subst. exists es1. split; [exact Hc1|].
    assert (H3 : ev (fun n => exists m, n = S (S m))) by (apply ev_00; eauto).
    eapply ev_S2; [exact H1|exact H3|]. intros n Hn1 (m & ->) s Hp Hd Hw. cbn [RuleModel.eng step e_parse parse_step]. change (step inp prods (step inp prods (eng m))) with (eng (S (S m))). rewrite Hn1 by exact Hp. reflexivity.
  - assert (Hb2 : ev (fun n => TRY n (RBr h t) p true b)).
    { eapply ev_imp; [exact Hb|]. intros n Hn1 vs. rewrite (try_br inp prods _ _ _ (t ++ [RBreak])). apply Hn1. }
    destruct (HF b Hb2) as (es & Hcl & He). exists (es ++ es1). split; [now apply clean_app|].
    assert (H3 : ev (fun n => exists m, n = S (S m))) by (apply ev_00; eauto).
    eapply ev_S3; [exact H1|exact He|exact H3|]. intros n Hn1 Hn2 (m & ->) s Hp Hd Hw.
    change (e_parse (eng (S (S (S m)))) c (RChc rs) final s []) with (p_chc (eng (S (S m))) c (existsb unconditional rs) rs final s []).
    rewrite Hn1 by exact Hp.
    specialize (Hn2 (go s p es1) (seq_cont (eng (S m)) c [RBreak] final) [] eq_refl Hd Hw eq_refl).
    change (eng (S (S m))) with (step inp prods (eng (S m))) in Hn2 |- *.
    change (e_finish (step inp prods (eng (S m)))) with (finish_step inp prods (eng (S m))) in Hn2 |- *. cbn [finish_step] in Hn2 |- *.
    rewrite seq_cont_app, Hn2, go_go. reflexivity.
Qed.
Lemma ws_ext E c c' k s a : cx_ws c = cx_ws c' -> ws_then E c k s a = ws_then E c' k s a.
Proof. unfold ws_then. now intros ->. Qed.
Lemma snoc_args (a : list val) x vs : (a ++ [x]) ++ vs = a ++ x :: vs.
Proof. now rewrite <- app_assoc. Qed.
Lemma push1 v acc : push v acc = acc ++ one v.
Proof. destruct v; cbn; [now rewrite app_nil_r|reflexivity]. Qed.

Lemma seq_nows' n c rs k : k_nows k = false -> k_nows (seq_cont (eng n) c rs k) = false.
Proof. intros Hk. induction rs as [|r rs IH]; cbn; auto. rewrite IH. apply andb_false_r. Qed.
Lemma mark_after E c rec k a X : try_after E c rec k a (mark X) = X.
Proof. destruct X as [[] s m| |]; reflexivity. Qed.

Ltac eu := cbn [RuleModel.eng step e_parse parse_step e_finish finish_step e_lst e_lstt e_try try_step e_wsloop].
(* a token and the whitespace behind it *)
Lemma tok_ws c kd p e q es : clean es ->
  ev (fun n => forall s k a, pos s = e -> wsf s = true -> k_nows k = false -> ws_then (eng n) c k s a = k_fn k (go s q es) a) ->
  exists es, clean es /\ ev (fun n => forall s k a, pos s = p -> wsf s = true -> k_nows k = false ->
    ws_then (eng n) c k (setpos e (emit (EToken kd (pos s) e) s)) a = k_fn k (go s q es) a).
Proof.
  intros Hcl H. exists (es ++ [EToken kd p e]). split; [apply clean_app; [exact Hcl|reflexivity]|].
  eapply ev_imp; [exact H|]. intros n Hn s k a <- Hw Hk. rewrite Hn by auto.
  rewrite <- (go_go s e [EToken kd (pos s) e] q es). reflexivity.
Qed.

Lemma list_item c d i sep p v q1 es1 l q es2 (b : bool) b0 :
  is_branch prods i = b ->
  ev (fun n => if b then TRY n i p true b0 /\ FIN n c d i b0 p v q1 es1 else PAR n c d i p v q1 es1) ->
  ev (fun n => forall s acc, pos s = q1 -> depth s = d -> wsf s = true ->
        e_lst (eng n) c i sep s acc = Res (OTrue [VSink (acc ++ l)]) (go s q es2) 0) ->
  ev (fun n => forall sb s acc, pos s = p -> depth s = d -> wsf s = true ->
        lst_item prods (eng n) c i sep sb s acc = Res (OTrue [VSink (acc ++ one v ++ l)]) (go s q (es2 ++ es1)) 0).
Proof.
  intros Hb H1 H2. eapply ev_imp; [exact (ev_and _ _ H1 H2)|]. intros n [Hn1 Hn2] sb s acc Hp Hd Hw. unfold lst_item. rewrite Hb.
  destruct b.
  - destruct Hn1 as [Ht Hf]. rewrite Hp, Ht. rewrite (Hf s final [] Hp Hd Hw eq_refl). cbn [final k_fn app delim].
    rewrite Hn2 by auto. now rewrite push1, go_go, <- app_assoc.
  - rewrite (Hn1 s final [] Hp Hd Hw eq_refl). cbn [final k_fn app delim].
    rewrite Hn2 by auto. now rewrite push1, go_go, <- app_assoc.
Qed.

Lemma none_here c d p vs q : D c d JW p vs q -> cx_ws c = None -> q = p.
Proof. inversion 1; subst; auto. congruence. Qed.
Lemma child_is c q : child_cx prods c q = inner prods c q.
Proof. unfold child_cx, inner. destruct (p_token (prods q)), (p_ws (prods q)); reflexivity. Qed.
Lemma behind_runs c d q0 q1 q : D (behind prods c q0) d JW q1 [] q -> runs (behind prods c q0) d JW q1 [] q ->
  exists es, clean es /\ ev (fun n => forall s k a v, pos s = q1 -> wsf s = true -> k_nows k = false ->
    prod_finish prods (eng n) c q0 k a s v = k_fn k (go s q es) (a ++ [VProd q0 v])).
Proof.
  intros HD (es & Hcl & H). unfold prod_finish. destruct (p_token (prods q0)) eqn:Ht.
  - exists es. split; [exact Hcl|]. eapply ev_imp; [exact H|]. intros n Hn s k a v Hp Hw Hk.
    rewrite (ws_ext _ c (behind prods c q0)) by (unfold behind; cbn; now rewrite Ht). now apply Hn.
  - exists []. split; [reflexivity|]. apply ev_0. intros n s k a v Hp Hw Hk.
    apply none_here in HD; [|unfold behind; cbn; now rewrite Ht]. subst q. now rewrite go_at.
Qed.

Lemma cond_tok t p ok : Cond (RTok t) p ok -> ok = fst (tk_try t inp p).
Proof. now inversion 1. Qed.

(* the count and the items *)
Lemma rep_yields E c m i sep k a s v j X : count_of v = Some (S j) ->
  delim (e_parse E c i final s []) (fun s v => rep_more E c i sep j s (push v [])) = X ->
  rep_run E c m i sep k a s v = delim X (fun s' v => k_fn k s' (match m with
     | RepDiscard => a | RepList => a ++ v | RepCapture => a ++ [VLex (pos s) (pos s')] end)).
Proof. intros Hn HX. unfold rep_run. rewrite Hn. cbn [rep_loop]. now rewrite HX. Qed.
Lemma rep_args m (a : list val) l p q :
  match m with RepDiscard => a | RepList => a ++ [VSink l] | RepCapture => a ++ [VLex p q] end = a ++ repeated m l p q.
Proof. destruct m; cbn; now rewrite ?app_nil_r. Qed.

Lemma complete c d j p vs q : D c d j p vs q -> runs c d j p vs q.
Proof.
  induction 1.
  - (* tok *) destruct IHDerives as (es0 & Hcl0 & H1). destruct (tok_ws c (tk_kind t) p e q es0 Hcl0 H1) as (es & Hcl & H2).
    destruct t0; cbn [runs].
    + intros b Hb. destruct (ev_some _ Hb) as (m & Hm). specialize (Hm []). revert Hm. eu. cbn [tmatch]. rewrite H. intros [= <-].
      exists es. split; [exact Hcl|]. eapply ev_S; [exact H2|]. intros n Hn s k a Hp Hd Hw Hk. eu. unfold tok_finish. cbn [b_end tkind_of].
      rewrite Hn by auto. now rewrite app_nil_r.
    + exists es. split; [exact Hcl|]. eapply ev_S; [exact H2|]. intros n Hn s k a Hp Hd Hw Hk. eu. unfold token_parse. cbn [tmatch tkind_of].
      rewrite Hp, H. cbn [fst snd]. rewrite <- Hp, Hn by auto. now rewrite app_nil_r.
  - (* cap *) destruct IHDerives as (es0 & Hcl0 & H1). destruct (tok_ws c (tk_kind t) p e q es0 Hcl0 H1) as (es & Hcl & H2).
    destruct t0; cbn [runs].
    + intros b Hb. destruct (ev_some _ Hb) as (m & Hm). specialize (Hm []). revert Hm. eu. cbn [tmatch]. rewrite H. intros [= <-].
      exists es. split; [exact Hcl|]. eapply ev_S; [exact H2|]. intros n Hn s k a Hp Hd Hw Hk. eu. unfold tok_finish. cbn [b_end tkind_of].
      rewrite Hn by auto. now rewrite Hp.
    + exists es. split; [exact Hcl|]. eapply ev_S; [exact H2|]. intros n Hn s k a Hp Hd Hw Hk. eu. unfold token_parse. cbn [tmatch tkind_of].
      rewrite Hp, H. cbn [fst snd]. rewrite <- Hp, Hn by auto. now rewrite Hp.
  - (* nil *) exists []. split; [reflexivity|]. apply ev_0. intros n s k a Hp Hd Hw Hk. cbn [seq_cont]. now rewrite go_at, app_nil_r.
  - (* cons *) apply runs_par in IHDerives1. destruct IHDerives1 as (es1 & Hc1 & H1). destruct IHDerives2 as (es2 & Hc2 & H2).
    exists (es2 ++ es1). split; [now apply clean_app|]. eapply ev_imp; [exact (ev_and _ _ H1 H2)|].
    intros n [Hn1 Hn2] s k a Hp Hd Hw Hk. cbn [seq_cont k_fn]. rewrite Hn1 by auto using seq_nows'.
    rewrite Hn2 by auto. now rewrite go_go, <- app_assoc.
  - (* seq *) destruct t0; cbn [runs]; [intros b; apply nobranch; reflexivity|]. destruct IHDerives as (es & Hc1 & H1).
    exists es. split; [exact Hc1|]. eapply ev_S; [exact H1|]. intros n Hn s k a Hp Hd Hw Hk. eu. unfold p_seq. auto.
  - (* br *) destruct IHDerives2 as (es2 & Hc2 & H2). destruct t0; cbn [runs].
    + intros b0 Hb. apply runs_fin in IHDerives1. destruct (IHDerives1 b0 (ev_pred _ Hb)) as (es1 & Hc1 & H1).
      exists (es2 ++ es1). split; [now apply clean_app|]. eapply ev_S2; [exact H1|exact H2|].
      intros n Hn1 Hn2 s k a Hp Hd Hw Hk. eu. rewrite Hn1 by auto using seq_nows'. rewrite Hn2 by auto. now rewrite go_go, <- app_assoc.
    + apply runs_par in IHDerives1. destruct IHDerives1 as (es1 & Hc1 & H1).
      exists (es2 ++ es1). split; [now apply clean_app|]. eapply ev_S2; [exact H1|exact H2|].
      intros n Hn1 Hn2 s k a Hp Hd Hw Hk. eu. unfold p_seq. cbn [seq_cont k_fn].
      rewrite Hn1 by auto using seq_nows'. rewrite Hn2 by auto. now rewrite go_go, <- app_assoc.
  - (* else *) destruct t0; cbn [runs].
    + intros b Hb. exists []. split; [reflexivity|]. apply ev_00. intros n s k a Hp Hd Hw Hk. eu. now rewrite go_at, app_nil_r.
    + exists []. split; [reflexivity|]. apply ev_0. intros n s k a Hp Hd Hw Hk. eu. now rewrite go_at, app_nil_r.
  - (* chc hit *) apply runs_fin in IHDerives.
    assert (HX : Cond (RChc (r :: rs)) p true /\ finishes c d (RChc (r :: rs)) p vs q) by (split; [now apply C_chc_hit|now apply fin_hit]).
    destruct t0; exact HX.
  - (* chc miss *)
    assert (IH : Cond (RChc rs) p true /\ finishes c d (RChc rs) p vs q) by (destruct t0; exact IHDerives). clear IHDerives. destruct IH as [HC HF].
    assert (HX : Cond (RChc (r :: rs)) p true /\ finishes c d (RChc (r :: rs)) p vs q).
    { split; [now apply C_chc_miss|]. intros b Hb. destruct (no _ _ H) as (b1 & es1 & Hc1 & H1 & H2).
      apply cond_runs in HC. destruct HC as (b2 & H3 & _). destruct (HF b2 H3) as (es2 & Hc2 & H4).
      destruct (ev_some _ (ev_and _ _ H1 (ev_and _ _ (ev_pred _ H3) (ev_pred _ Hb)))) as (m & Hm1 & Hm2 & Hm).
      specialize (Hm1 []). specialize (Hm2 []). specialize (Hm []).
      change (try_step inp prods (eng (S m)) (RChc (r :: rs)) [] p = BR true b) in Hm. cbn [try_step t_chc] in Hm.
      change (try_step inp prods (eng (S m)) (RChc rs) [] p = BR true b2) in Hm2. cbn [try_step] in Hm2.
      destruct (t_chc_shape inp prods _ _ _ _ _ _ _ Hm2) as (j & bs & -> & _).
      rewrite Hm1, t_chc_shift, Hm2 in Hm. injection Hm as <-.
      exists (es2 ++ rev es1). split; [now apply clean_app|]. eapply ev_S2; [exact H2|exact (ev_pred _ H4)|].
      intros n Hn2 Hn4 s k a Hp Hd Hw Hk. eu. cbn [f_chc hd tl]. rewrite (can _ _ _ _ _ _ Hn2).
      specialize (Hn4 (go s (pos s) (rev es1)) k a Hp Hd Hw Hk). revert Hn4. eu. intros ->. now rewrite go_go. }
    destruct t0; exact HX.
  - (* if yes *) destruct t0; cbn [runs]; [intros b0; apply nobranch; reflexivity|].
    destruct (yes _ _ _ _ _ _ H IHDerives) as (b0 & es & Hcl & H1 & H2). exists es. split; [exact Hcl|].
    eapply ev_S2; [exact H1|exact H2|]. intros n Hn1 Hn2 s k a Hp Hd Hw Hk. eu. unfold branch_or. rewrite Hp, Hn1. auto.
  - (* if no *) destruct t0; cbn [runs]; [intros b0; apply nobranch; reflexivity|].
    destruct (no _ _ H) as (b0 & es & Hcl & H1 & H2). exists (rev es). split; [exact Hcl|].
    eapply ev_S2; [exact H1|exact H2|]. intros n Hn1 Hn2 s k a Hp Hd Hw Hk. eu. unfold branch_or. rewrite Hp, Hn1.
    rewrite (can _ _ _ _ _ _ Hn2). now rewrite Hp, app_nil_r.
  - (* opt yes *) destruct t0; cbn [runs]; [intros b0; apply nobranch; reflexivity|].
    destruct (yes _ _ _ _ _ _ H IHDerives) as (b0 & es & Hcl & H1 & H2). exists es. split; [exact Hcl|].
    eapply ev_S2; [exact H1|exact H2|]. intros n Hn1 Hn2 s k a Hp Hd Hw Hk. eu. unfold branch_or. rewrite Hp, Hn1. auto.
  - (* opt no *) destruct t0; cbn [runs]; [intros b0; apply nobranch; reflexivity|].
    destruct (no _ _ H) as (b0 & es & Hcl & H1 & H2). exists (rev es). split; [exact Hcl|].
    eapply ev_S2; [exact H1|exact H2|]. intros n Hn1 Hn2 s k a Hp Hd Hw Hk. eu. unfold branch_or. rewrite Hp, Hn1.
    rewrite (can _ _ _ _ _ _ Hn2). now rewrite Hp.
  - (* optt end *) destruct t0; cbn [runs]; [intros b0; apply nobranch; reflexivity|].
    destruct (yes _ _ _ _ _ _ H IHDerives) as (b0 & es & Hcl & H1 & H2). exists es. split; [exact Hcl|].
    eapply ev_S2; [exact H1|exact H2|]. intros n Hn1 Hn2 s k a Hp Hd Hw Hk. eu. rewrite Hp, Hn1, Hn2 by auto. now rewrite snoc_args.
  - (* optt rule *) destruct t0; cbn [runs]; [intros b0; apply nobranch; reflexivity|].
    destruct (no _ _ H) as (b0 & es & Hcl & H1 & H2). apply runs_par in IHDerives. destruct IHDerives as (es2 & Hc2 & H3).
    exists (es2 ++ rev es). split; [now apply clean_app|].
    eapply ev_S3; [exact H1|exact H2|exact H3|]. intros n Hn1 Hn2 Hn3 s k a Hp Hd Hw Hk. eu. rewrite Hp, Hn1.
    rewrite (can _ _ _ _ _ _ Hn2), Hn3 by auto. now rewrite go_go.
  - (* must *) cbn [runs].
    destruct (yes _ _ _ _ _ _ H IHDerives) as (b0 & es & Hcl & H1 & H2). exists es. split; [exact Hcl|].
    eapply ev_S2; [exact H1|exact H2|]. intros n Hn1 Hn2 s k a Hp Hd Hw Hk. eu. unfold branch_or. rewrite Hp, Hn1. auto.
  - (* must taken *) cbn [runs]. intros b0 Hb. apply runs_fin in IHDerives. destruct (IHDerives b0 (ev_pred _ Hb)) as (es & Hcl & H1).
    exists es. split; [exact Hcl|]. eapply ev_S; [exact H1|]. intros n Hn. exact Hn.
  - (* stop *) destruct (no _ _ H) as (b0 & es & Hcl & H1 & H2). destruct (loop_break _ _ H) as (es2 & Hc2 & H3).
    exists (rev es), es2. split; [exact Hcl|]. split; [exact Hc2|]. split; [|split].
    + eapply ev_S2; [exact H1|exact H2|]. intros n Hn1 Hn2 s k a Hp Hd Hw Hk. eu. rewrite Hp, Hn1.
      rewrite (can _ _ _ _ _ _ Hn2). now rewrite Hp, app_nil_r.
    + eapply ev_S; [exact H3|]. intros n Hn s k a Hp Hd Hw Hk. eu. now rewrite Hn.
    + intros t -> _. apply cond_tok in H. apply ev_0. intros n. eu. unfold wsloop_step. cbn [tmatch]. now rewrite <- H.
  - (* more *) pose proof (runs_fin _ _ _ _ _ _ IHDerives1) as HF.
    destruct (yes _ _ _ _ _ _ H IHDerives1) as (b0 & es & Hcl & H3 & H4). destruct (loop_more _ _ _ _ _ _ H HF) as (es2 & Hc2 & H5).
    destruct IHDerives2 as (es3 & es4 & Hc3 & Hc4 & H6 & H7 & H8).
    exists (es3 ++ es), (es4 ++ es2). split; [now apply clean_app|]. split; [now apply clean_app|]. split; [|split].
    + eapply ev_S3; [exact H3|exact H4|exact H6|]. intros n Hn3 Hn4 Hn6 s k a Hp Hd Hw Hk. eu. rewrite Hp, Hn3.
      rewrite (Hn4 s final [] Hp Hd Hw eq_refl). cbn [final k_fn app delim]. rewrite Hn6 by auto. now rewrite go_go.
    + eapply ev_S2; [exact H5|exact H7|]. intros n Hn5 Hn7 s k a Hp Hd Hw Hk. eu. rewrite Hn5 by auto. rewrite Hn7 by auto. now rewrite go_go.
    + intros t -> Hws. specialize (H8 t eq_refl Hws). eapply ev_S; [exact H8|]. intros n Hn. revert Hn. eu. unfold wsloop_step. cbn [tmatch].
      inversion H0; subst. match goal with H : tk_try t inp p = _ |- _ => rewrite H end. cbn [fst snd].
      match goal with H : D _ _ JW _ _ _ |- _ => inversion H; subst end; [auto|congruence].
  - (* loop *) destruct IHDerives as (es & Hcl & H1). destruct t0; cbn [runs]; [intros b0; apply nobranch; reflexivity|].
    exists es. split; [exact Hcl|]. eapply ev_imp; [exact H1|]. intros n Hn s k a Hp Hd Hw Hk. rewrite Hn by auto. now rewrite app_nil_r.
  - (* loop more *) apply runs_fin in IHDerives1. destruct (turn_more c d rs i r p v q1 H H0 IHDerives1) as (es1 & Hc1 & H5).
    destruct IHDerives2 as (es2 & Hc2 & H6). exists (es2 ++ es1). split; [now apply clean_app|].
    eapply ev_S2; [exact H5|exact H6|]. intros n Hn5 Hn6 s k a Hp Hd Hw Hk. eu. rewrite Hn5 by auto. rewrite Hn6 by auto. now rewrite go_go.
  - (* loop break *) apply runs_fin in IHDerives. destruct (turn_break c d rs i r r' p v q H H0 H1 H2 IHDerives) as (es & Hcl & H5).
    exists es. split; [exact Hcl|]. eapply ev_S; [exact H5|]. intros n Hn s k a Hp Hd Hw Hk. eu. now rewrite Hn by auto.
  - (* while *) destruct t0; cbn [runs]; [intros b0; apply nobranch; reflexivity|].
    destruct IHDerives as (es & es2 & Hc1 & Hc2 & H1 & _). exists es. auto.
  - (* lst *) destruct (IHDerives2 l eq_refl) as (es2 & Hc2 & H2). destruct t0; cbn [runs].
    + intros b Hb. apply runs_fin in IHDerives1. destruct (IHDerives1 b (ev_pred _ Hb)) as (es1 & Hc1 & H1).
      exists (es2 ++ es1). split; [now apply clean_app|]. eapply ev_S2; [exact H1|exact H2|]. intros n Hn1 Hn2 s k a Hp Hd Hw Hk. eu.
      rewrite (Hn1 s final [] Hp Hd Hw eq_refl). cbn [final k_fn app delim]. rewrite Hn2 by auto. cbn [delim]. unfold sink_finish.
      now rewrite push1, go_go.
    + apply runs_par in IHDerives1. destruct IHDerives1 as (es1 & Hc1 & H1).
      exists (es2 ++ es1). split; [now apply clean_app|]. eapply ev_S2; [exact H1|exact H2|]. intros n Hn1 Hn2 s k a Hp Hd Hw Hk. eu.
      rewrite (Hn1 s final [] Hp Hd Hw eq_refl). cbn [final k_fn app delim]. rewrite Hn2 by auto. cbn [delim]. unfold sink_finish.
      now rewrite push1, go_go.
  - (* m end *) intros l [= <-]. destruct (no _ _ H0) as (b0 & es & Hcl & H1 & H2). exists (rev es). split; [exact Hcl|].
    eapply ev_S2; [exact H1|exact H2|]. intros n Hn1 Hn2 s acc Hp Hd Hw. eu. unfold lst_step, lst_item. rewrite H, Hp, Hn1.
    rewrite (can _ _ _ _ _ _ Hn2). now rewrite Hp, app_nil_r.
  - (* m item *) intros l0 [= <-]. destruct (yes _ _ _ _ _ _ H0 IHDerives1) as (b0 & es & Hcl & H3 & H4).
    destruct (IHDerives2 l eq_refl) as (es2 & Hc2 & H5). exists (es2 ++ es). split; [now apply clean_app|].
    eapply ev_S; [exact (list_item c d i None p v q1 es l q es2 true b0 H (ev_and _ _ H3 H4) H5)|].
    intros n Hn s acc Hp Hd Hw. eu. unfold lst_step. auto.
  - (* m rule *) intros l0 [= <-]. apply runs_par in IHDerives1. destruct IHDerives1 as (es & Hcl & H3).
    destruct (IHDerives2 l eq_refl) as (es2 & Hc2 & H5). exists (es2 ++ es). split; [now apply clean_app|].
    eapply ev_S; [exact (list_item c d i None p v q1 es l q es2 false BNone H H3 H5)|].
    intros n Hn s acc Hp Hd Hw. eu. unfold lst_step. auto.
  - (* s end *) intros l [= <-]. destruct (no _ _ H) as (b0 & es & Hcl & H1 & H2). exists (rev es). split; [exact Hcl|].
    eapply ev_S2; [exact H1|exact H2|]. intros n Hn1 Hn2 s acc Hp Hd Hw. eu. unfold lst_step. rewrite Hp, Hn1.
    rewrite (can _ _ _ _ _ _ Hn2). now rewrite Hp, app_nil_r.
  - (* s trail *) intros l [= <-]. destruct (yes _ _ _ _ _ _ H IHDerives) as (b0 & es & Hcl & H4 & H5).
    destruct (no _ _ H2) as (b1 & es1 & Hc1 & H6 & H7). exists (rev es1 ++ es). split; [now apply clean_app|].
    eapply ev_S2; [exact (ev_and _ _ H4 H5)|exact (ev_and _ _ H6 H7)|]. intros n [Hn4 Hn5] [Hn6 Hn7] s acc Hp Hd Hw.
    eu. unfold lst_step. rewrite Hp, Hn4. rewrite (Hn5 s final [] Hp Hd Hw eq_refl). cbn [final k_fn app delim]. unfold lst_item.
    rewrite H1. cbn [go pos vars]. rewrite Hn6. rewrite (can _ _ _ _ _ _ Hn7). rewrite push1.
    destruct k; [contradiction| |]; cbn [report_trailing]; change (pos (go s q es)) with q; now rewrite go_go.
  - (* s item *) intros l0 [= <-]. destruct (yes _ _ _ _ _ _ H IHDerives1) as (b0 & es & Hcl & H5 & H6).
    destruct (yes _ _ _ _ _ _ H2 IHDerives2) as (b1 & es1 & Hc1 & H7 & H8). destruct (IHDerives3 l eq_refl) as (es2 & Hc2 & H9).
    exists ((es2 ++ es1) ++ es). split; [auto using clean_app|].
    eapply ev_S3; [exact H5|exact H6|exact (list_item c d i (Some (sr, k)) q1 v2 q2 es1 l q es2 true b1 H1 (ev_and _ _ H7 H8) H9)|].
    intros n Hn5 Hn6 Hn s acc Hp Hd Hw. eu. unfold lst_step. rewrite Hp, Hn5. rewrite (Hn6 s final [] Hp Hd Hw eq_refl). cbn [final k_fn app delim].
    rewrite Hn by auto. now rewrite push1, go_go, <- app_assoc.
  - (* s rule *) intros l0 [= <-]. destruct (yes _ _ _ _ _ _ H IHDerives1) as (b0 & es & Hcl & H5 & H6).
    apply runs_par in IHDerives2. destruct IHDerives2 as (es1 & Hc1 & H7). destruct (IHDerives3 l eq_refl) as (es2 & Hc2 & H9).
    exists ((es2 ++ es1) ++ es). split; [auto using clean_app|].
    eapply ev_S3; [exact H5|exact H6|exact (list_item c d i (Some (sr, k)) q1 v2 q2 es1 l q es2 false BNone H1 H7 H9)|].
    intros n Hn5 Hn6 Hn s acc Hp Hd Hw. eu. unfold lst_step. rewrite Hp, Hn5. rewrite (Hn6 s final [] Hp Hd Hw eq_refl). cbn [final k_fn app delim].
    rewrite Hn by auto. now rewrite push1, go_go, <- app_assoc.
  - (* lstt *) destruct t0; cbn [runs]; [intros b0; apply nobranch; reflexivity|].
    apply runs_par in IHDerives1. destruct IHDerives1 as (es1 & Hc1 & H4). destruct (IHDerives2 l eq_refl) as (es2 & Hc2 & H5).
    destruct (yes _ _ _ _ _ _ H1 IHDerives3) as (b0 & es3 & Hc3 & H6 & H7).
    exists (es3 ++ es2 ++ es1). split; [auto using clean_app|].
    eapply ev_S3; [exact H4|exact H5|exact (ev_and _ _ H6 H7)|]. intros n Hn4 Hn5 [Hn6 Hn7] s k a Hp Hd Hw Hk. eu. unfold p_lstt.
    rewrite (Hn4 s final [] Hp Hd Hw eq_refl). cbn [final k_fn app orelse]. rewrite Hn5 by auto. cbn [delim go pos vars]. rewrite Hn6.
    change (St q2 (depth s) (wsf s) (vars s) (es2 ++ es1 ++ trace s)) with (go (go s q1 es1) q2 es2).
    rewrite Hn7 by auto. rewrite !go_go, push1, snoc_args. cbn [app]. rewrite <- ?app_assoc. reflexivity.
  - (* t end *) intros l [= <-]. apply cond_runs in H. destruct H as (b0 & H1 & _). exists []. split; [reflexivity|].
    eapply ev_S; [exact H1|]. intros n Hn lim sp s acc Hp Hd Hw. eu. unfold lstt_step. rewrite Hp, Hn. now rewrite go_at, app_nil_r.
  - (* t item *) intros l0 [= <-]. destruct (no _ _ H) as (b0 & es & Hcl & H3 & H4). apply runs_par in IHDerives1.
    destruct IHDerives1 as (es1 & Hc1 & H5). destruct (IHDerives2 l eq_refl) as (es2 & Hc2 & H6).
    exists (es2 ++ es1 ++ rev es). split; [auto using clean_app|].
    assert (Hi : ev (fun n => forall lim sp s acc, pos s = p -> depth s = d -> wsf s = true ->
      e_lstt (eng n) c te i None lim LSep sp s acc = Res (OTrue [VSink (acc ++ one v ++ l)]) (go s q (es2 ++ es1)) 0)).
    { eapply (ev_S (fun n => forall lim sp s acc, pos s = p -> depth s = d -> wsf s = true ->
        e_lstt (eng n) c te i None lim LItem sp s acc = Res (OTrue [VSink (acc ++ one v ++ l)]) (go s q (es2 ++ es1)) 0)).
      - eapply ev_S2; [exact H5|exact H6|]. intros n Hn5 Hn6 lim sp s acc Hp Hd Hw. eu. unfold lstt_step.
        rewrite (Hn5 s final [] Hp Hd Hw eq_refl). cbn [final k_fn app orelse]. rewrite Hn6 by auto. now rewrite push1, go_go, <- app_assoc.
      - intros n Hn lim sp s acc Hp Hd Hw. eu. unfold lstt_step. auto. }
    eapply ev_S3; [exact H3|exact H4|exact Hi|]. intros n Hn3 Hn4 Hn lim sp s acc Hp Hd Hw. eu. unfold lstt_step. rewrite Hp, Hn3.
    rewrite (can _ _ _ _ _ _ Hn4), Hn by auto. rewrite go_go, <- !app_assoc. reflexivity.
  - (* t trail *) intros l [= <-]. destruct (no _ _ H) as (b0 & es & Hcl & H3 & H4). apply runs_par in IHDerives.
    destruct IHDerives as (es1 & Hc1 & H5). apply cond_runs in H1. destruct H1 as (b1 & H6 & _).
    exists (es1 ++ rev es). split; [auto using clean_app|].
    assert (Hi : ev (fun n => forall lim sp s acc, pos s = p -> depth s = d -> wsf s = true ->
      e_lstt (eng n) c te i (Some (sr, k)) lim LSep sp s acc = Res (OTrue [VSink (acc ++ one v)]) (go s q es1) 0)).
    { eapply ev_S2; [exact H5|exact (ev_S _ (fun n => forall lim sp s acc, pos s = q ->
        e_lstt (eng n) c te i (Some (sr, k)) lim LTrail sp s acc = Res (OTrue [VSink acc]) s 0) H6
        ltac:(intros n Hn lim sp s acc Hp; eu; unfold lstt_step; rewrite Hp, Hn; destruct k; [contradiction| |]; reflexivity))|].
      intros n Hn5 Hn6 lim sp s acc Hp Hd Hw. eu. unfold lstt_step. rewrite (Hn5 s final [] Hp Hd Hw eq_refl). cbn [final k_fn app orelse].
      rewrite Hn6 by reflexivity. now rewrite push1. }
    eapply ev_S3; [exact H3|exact H4|exact Hi|]. intros n Hn3 Hn4 Hn lim sp s acc Hp Hd Hw. eu. unfold lstt_step. rewrite Hp, Hn3.
    rewrite (can _ _ _ _ _ _ Hn4), Hn by auto. now rewrite go_go.
  - (* t sep *) intros l0 [= <-]. destruct (no _ _ H) as (b0 & es & Hcl & H4 & H5). apply runs_par in IHDerives1.
    destruct IHDerives1 as (es1 & Hc1 & H6). destruct (no _ _ H1) as (b1 & es3 & Hc3 & H7 & _). apply runs_par in IHDerives2.
    destruct IHDerives2 as (es2 & Hc2 & H8). destruct (IHDerives3 l eq_refl) as (es4 & Hc4 & H9).
    exists (es4 ++ es2 ++ es1 ++ rev es). split; [auto using clean_app|].
    assert (HI : ev (fun n => forall lim sp s acc, pos s = q1 -> depth s = d -> wsf s = true ->
      e_lstt (eng n) c te i (Some (sr, k)) lim LItem sp s acc = Res (OTrue [VSink (acc ++ one v2 ++ l)]) (go s q (es4 ++ es2)) 0)).
    { eapply ev_S2; [exact H8|exact H9|]. intros n Hn5 Hn6 lim sp s acc Hp Hd Hw. eu. unfold lstt_step.
      rewrite (Hn5 s final [] Hp Hd Hw eq_refl). cbn [final k_fn app orelse]. rewrite Hn6 by auto. now rewrite push1, go_go, <- app_assoc. }
    assert (HT : ev (fun n => forall lim sp s acc, pos s = q1 -> depth s = d -> wsf s = true ->
      e_lstt (eng n) c te i (Some (sr, k)) lim LTrail sp s acc = Res (OTrue [VSink (acc ++ one v2 ++ l)]) (go s q (es4 ++ es2)) 0)).
    { eapply ev_S2; [exact H7|exact HI|]. intros n Hn5 Hn6 lim sp s acc Hp Hd Hw. eu. unfold lstt_step. rewrite Hp, Hn5. auto. }
    assert (HS : ev (fun n => forall lim sp s acc, pos s = p -> depth s = d -> wsf s = true ->
      e_lstt (eng n) c te i (Some (sr, k)) lim LSep sp s acc = Res (OTrue [VSink (acc ++ one v ++ one v2 ++ l)]) (go s q ((es4 ++ es2) ++ es1)) 0)).
    { eapply ev_S2; [exact H6|exact HT|]. intros n Hn5 Hn6 lim sp s acc Hp Hd Hw. eu. unfold lstt_step.
      rewrite (Hn5 s final [] Hp Hd Hw eq_refl). cbn [final k_fn app orelse]. rewrite Hn6 by auto. now rewrite push1, go_go, <- app_assoc. }
    eapply ev_S3; [exact H4|exact H5|exact HS|]. intros n Hn3 Hn4 Hn lim sp s acc Hp Hd Hw. eu. unfold lstt_step. rewrite Hp, Hn3.
    rewrite (can _ _ _ _ _ _ Hn4), Hn by auto. rewrite go_go. now rewrite <- !app_assoc.
  - (* nsep *) destruct t0; cbn [runs]; [intros b0; apply nobranch; reflexivity|].
    destruct (no _ _ H) as (b0 & es & Hcl & H1 & H2). exists (rev es). split; [exact Hcl|].
    eapply ev_S2; [exact H1|exact H2|]. intros n Hn1 Hn2 s k a Hp Hd Hw Hk. eu. unfold p_nsep, branch_or. rewrite Hp, Hn1.
    rewrite (can _ _ _ _ _ _ Hn2). now rewrite Hp, app_nil_r.
  - (* tryt *) destruct t0; cbn [runs]; [intros b0; apply nobranch; reflexivity|].
    apply runs_par in IHDerives1. destruct IHDerives1 as (es1 & Hc1 & H1). destruct IHDerives2 as (es2 & Hc2 & H2).
    exists (es2 ++ es1). split; [now apply clean_app|]. eapply ev_S2; [exact H1|exact H2|].
    intros n Hn1 Hn2 s k a Hp Hd Hw Hk. eu. unfold p_try. rewrite Hn1 by auto. cbn [try_cont k_fn]. rewrite mark_after.
    specialize (Hn2 (go s q1 es1) k (a ++ v) eq_refl Hd Hw Hk). rewrite go_go, <- app_assoc in Hn2.
    rewrite <- Hn2. destruct te; reflexivity.
  - (* try *) destruct t0; cbn [runs].
    + intros b Hb. apply runs_fin in IHDerives. destruct (IHDerives b (ev_pred _ Hb)) as (es1 & Hc1 & H1).
      exists es1. split; [exact Hc1|]. eapply ev_S; [exact H1|]. intros n Hn s k a Hp Hd Hw Hk. eu. rewrite Hn by auto.
      cbn [try_cont k_fn]. now rewrite mark_after.
    + apply runs_par in IHDerives. destruct IHDerives as (es1 & Hc1 & H1).
      exists es1. split; [exact Hc1|]. eapply ev_S; [exact H1|]. intros n Hn s k a Hp Hd Hw Hk. eu. unfold p_try. rewrite Hn by auto.
      cbn [try_cont k_fn]. now rewrite mark_after.
  - (* prod *) cbn [runs]. destruct (behind_runs _ _ _ _ _ H1 IHDerives3) as (es3 & Hc3 & H4).
    apply runs_par in IHDerives2. destruct IHDerives2 as (es2 & Hc2 & H5). destruct IHDerives1 as (es1 & Hc1 & H6).
    destruct (p_ws (prods q0)) as [w|] eqn:Hws.
    + exists (es3 ++ [EPFinish q0 q1] ++ es2 ++ es1 ++ [EPStart q0 p]).
      split; [repeat (apply clean_app; auto); reflexivity|].
      eapply ev_S3; [exact H4|exact H5|exact H6|]. intros n Hn4 Hn5 Hn6 s k a Hp Hd Hw Hk. eu. unfold p_prod. rewrite Hws, child_is.
      rewrite (ws_ext _ (inner prods c q0) (before prods q0)) by (unfold inner, before; cbn; now rewrite Hws).
      rewrite Hn6 by auto. cbn [k_fn]. rewrite (Hn5 _ final []) by auto. cbn [final k_fn app prod_after].
      rewrite Hn4 by auto. f_equal. subst p. unfold go, emit. cbn. f_equal. repeat (rewrite <- ?app_assoc; cbn [app]). reflexivity.
    + apply none_here in H; [|exact Hws]. subst p1.
      exists (es3 ++ [EPFinish q0 q1] ++ es2 ++ [EPStart q0 p]).
      split; [repeat (apply clean_app; auto); reflexivity|].
      eapply ev_S2; [exact H4|exact H5|]. intros n Hn4 Hn5 s k a Hp Hd Hw Hk. eu. unfold p_prod. rewrite Hws, child_is.
      rewrite (Hn5 _ final []) by auto. cbn [final k_fn app prod_after].
      rewrite Hn4 by auto. f_equal. subst p. unfold go, emit. cbn. f_equal. repeat (rewrite <- ?app_assoc; cbn [app]). reflexivity.
  - (* prod taken *) cbn [runs]. destruct (behind_runs _ _ _ _ _ H0 IHDerives2) as (es3 & Hc3 & H4).
    intros b Hb. destruct (ev_some _ Hb) as (m & Hm). specialize (Hm []). revert Hm. eu.
    destruct (e_try (eng m) (p_rule (prods q0)) [] p) as [ok b1| |]; try discriminate. intros [= -> <-].
    assert (Hb1 : ev (fun n => TRY n (p_rule (prods q0)) p true b1)).
    { eapply ev_imp; [exact (ev_pred _ Hb)|]. intros n Hn vs0. specialize (Hn vs0). revert Hn. eu.
      destruct (e_try (eng n) (p_rule (prods q0)) vs0 p) as [ok b2| |]; try discriminate. now intros [= -> ->]. }
    apply runs_fin in IHDerives1. destruct (IHDerives1 b1 Hb1) as (es2 & Hc2 & H5).
    exists (es3 ++ [EPFinish q0 q1] ++ es2 ++ [EPStart q0 p]).
    split; [repeat (apply clean_app; auto); reflexivity|].
    eapply ev_S2; [exact H4|exact H5|]. intros n Hn4 Hn5 s k a Hp Hd Hw Hk. eu. rewrite child_is. cbn [b_in b_at].
    rewrite (Hn5 _ final []) by auto. cbn [final k_fn app prod_after].
    rewrite Hn4 by auto. f_equal. unfold go, emit. cbn. f_equal. repeat (rewrite <- ?app_assoc; cbn [app]). reflexivity.
  - (* rec *) destruct t0; cbn [runs]; [intros b0; apply nobranch; reflexivity|].
    apply runs_par in IHDerives. destruct IHDerives as (es1 & Hc1 & H1). exists es1. split; [exact Hc1|].
    eapply ev_S; [exact H1|]. intros n Hn s k a Hp Hd Hw Hk. eu. unfold inc_depth.
    destruct (cx_max c =? 0) eqn:E0; [apply Nat.eqb_eq in E0; lia|]. destruct (cx_max c <=? depth s) eqn:E1; [apply Nat.leb_le in E1; lia|].
    rewrite Hn by (cbn; congruence). reflexivity.
  - (* recb *) destruct t0; cbn [runs].
    + intros b Hb. apply runs_fin in IHDerives. destruct (IHDerives b (ev_pred _ Hb)) as (es1 & Hc1 & H1).
      exists es1. split; [exact Hc1|]. eapply ev_S; [exact H1|]. intros n Hn s k a Hp Hd Hw Hk. eu. unfold inc_depth.
      destruct (cx_max c =? 0) eqn:E0; [apply Nat.eqb_eq in E0; lia|]. destruct (cx_max c <=? depth s) eqn:E1; [apply Nat.leb_le in E1; lia|].
      rewrite Hn by (cbn; congruence). reflexivity.
    + apply runs_par in IHDerives. destruct IHDerives as (es1 & Hc1 & H1). exists es1. split; [exact Hc1|].
      eapply ev_S; [exact H1|]. intros n Hn s k a Hp Hd Hw Hk. eu. unfold inc_depth.
      destruct (cx_max c =? 0) eqn:E0; [apply Nat.eqb_eq in E0; lia|]. destruct (cx_max c <=? depth s) eqn:E1; [apply Nat.leb_le in E1; lia|].
      rewrite Hn by (cbn; congruence). reflexivity.
  - (* sub *) destruct t0; cbn [runs]; [intros b0; apply nobranch; reflexivity|].
    destruct IHDerives1 as (es1 & Hc1 & H1). apply runs_par in IHDerives2. destruct IHDerives2 as (es2 & Hc2 & H2).
    exists (EGFinish q :: EPFinish q0 q :: (es2 ++ es1) ++ [EPStart q0 p; EGStart p]). split.
    { unfold clean in *. cbn [existsb is_err orb]. now rewrite !existsb_app, Hc1, Hc2. }
    eapply ev_S2; [exact H1|exact H2|]. intros n Hn1 Hn2 s k a Hp Hd Hw Hk. eu. unfold do_action. fold (nested prods c q0).
    rewrite Hn1 by auto. cbn [k_fn]. rewrite Hn2 by auto. cbn [final k_fn app].
    unfold go, emit, setvars. cbn [pos depth wsf vars trace app]. rewrite Hp, <- !app_assoc. reflexivity.
  - (* peek *) destruct (tk_try t inp p) as [ok e] eqn:Ht. cbn in H. subst ok. destruct t0; cbn [runs].
    + intros b Hb. destruct (ev_some _ Hb) as (m & Hm). specialize (Hm []). revert Hm. eu. cbn [tmatch]. rewrite Ht. intros [= <-].
      exists [EBack p e]. split; [reflexivity|]. apply ev_0. intros n s k a Hp Hd Hw Hk. eu. cbn. rewrite app_nil_r, <- Hp. reflexivity.
    + exists [EBack p e]. split; [reflexivity|]. apply ev_0. intros n s k a Hp Hd Hw Hk. eu. cbn [tmatch]. rewrite Hp, Ht. cbn. rewrite app_nil_r, <- Hp. reflexivity.
  - (* peekn *) destruct (tk_try t inp p) as [ok e] eqn:Ht. cbn in H. subst ok. destruct t0; cbn [runs].
    + intros b Hb. destruct (ev_some _ Hb) as (m & Hm). specialize (Hm []). revert Hm. eu. cbn [tmatch]. rewrite Ht. intros [= <-].
      exists [EBack p e]. split; [reflexivity|]. apply ev_0. intros n s k a Hp Hd Hw Hk. eu. cbn. rewrite app_nil_r, <- Hp. reflexivity.
    + exists [EBack p e]. split; [reflexivity|]. apply ev_0. intros n s k a Hp Hd Hw Hk. eu. cbn [tmatch]. rewrite Hp, Ht. cbn. rewrite app_nil_r, <- Hp. reflexivity.
  - (* pos *) destruct t0; cbn [runs]; [intros b0; apply nobranch; reflexivity|].
    exists [EToken KPosition p p]. split; [reflexivity|]. apply ev_0. intros n s k a Hp Hd Hw Hk. eu. rewrite <- Hp. reflexivity.
  - (* posr *) destruct t0; cbn [runs].
    + intros b Hb. apply runs_fin in IHDerives. destruct (IHDerives b (ev_pred _ Hb)) as (es1 & Hc1 & H1).
      exists (es1 ++ [EToken KPosition p p]). split; [apply clean_app; auto; reflexivity|]. eapply ev_S; [exact H1|].
      intros n Hn s k a Hp Hd Hw Hk. eu. rewrite Hn by auto. rewrite snoc_args, <- (go_go s p [EToken KPosition p p] q es1), <- Hp. reflexivity.
    + apply runs_par in IHDerives. destruct IHDerives as (es1 & Hc1 & H1).
      exists (es1 ++ [EToken KPosition p p]). split; [apply clean_app; auto; reflexivity|]. eapply ev_S; [exact H1|].
      intros n Hn s k a Hp Hd Hw Hk. eu. rewrite Hn by auto. rewrite snoc_args, <- (go_go s p [EToken KPosition p p] q es1), <- Hp. reflexivity.
  - (* eof *) apply Nat.leb_le in H. destruct t0; cbn [runs].
    + intros b Hb. exists [EToken KEof p p]. split; [reflexivity|]. apply ev_0. intros n s k a Hp Hd Hw Hk. eu. rewrite app_nil_r, <- Hp. reflexivity.
    + exists [EToken KEof p p]. split; [reflexivity|]. apply ev_0. intros n s k a Hp Hd Hw Hk. eu. unfold eof. rewrite Hp, H, app_nil_r, <- Hp. reflexivity.
  - (* pas *) destruct t0; cbn [runs].
    + intros b Hb. apply runs_fin in IHDerives. destruct (IHDerives b (ev_pred _ Hb)) as (es1 & Hc1 & H1).
      exists es1. split; [exact Hc1|]. eapply ev_S; [exact H1|].
      intros n Hn s k a Hp Hd Hw Hk. eu. unfold pas_after. rewrite (Hn s final [] Hp Hd Hw eq_refl). reflexivity.
    + apply runs_par in IHDerives. destruct IHDerives as (es1 & Hc1 & H1).
      exists es1. split; [exact Hc1|]. eapply ev_S; [exact H1|].
      intros n Hn s k a Hp Hd Hw Hk. eu. unfold pas_after. rewrite (Hn s final [] Hp Hd Hw eq_refl). reflexivity.
  - (* look *) destruct (Ahead_search _ _ _ H) as (b1 & e & HS). destruct t0; cbn [runs].
    + intros b Hb. destruct (ev_some _ Hb) as (m & Hm). specialize (Hm []). revert Hm. eu. rewrite HS. intros [= <-].
      exists [EBack p e]. split; [reflexivity|]. apply ev_0. intros n s k a Hp Hd Hw Hk. eu. cbn. rewrite app_nil_r, <- Hp. reflexivity.
    + exists [EBack p e]. split; [reflexivity|]. apply ev_0. intros n s k a Hp Hd Hw Hk. eu. rewrite Hp, HS, app_nil_r, <- Hp. reflexivity.
  - (* sym *) destruct IHDerives as (es0 & Hcl0 & H2). destruct (tok_ws c (tk_kind t) p e q es0 Hcl0 H2) as (es & Hcl & H3).
    destruct t0; cbn [runs].
    + intros b Hb. destruct (ev_some _ Hb) as (m & Hm). specialize (Hm []). revert Hm. eu. cbn [tmatch]. rewrite H. intros [= _ <-].
      exists es. split; [exact Hcl|]. eapply ev_S; [exact H3|]. intros n Hn s k a Hp Hd Hw Hk. eu. unfold tok_finish. cbn [b_end tkind_of].
      rewrite Hp, H0, <- Hp, Hn by auto. reflexivity.
    + exists es. split; [exact Hcl|]. eapply ev_S; [exact H3|]. intros n Hn s k a Hp Hd Hw Hk. eu. unfold token_parse. cbn [tmatch tkind_of].
      rewrite Hp, H. cbn [fst snd]. rewrite <- Hp, Hn by auto. cbn [k_fn]. now rewrite Hp, H0.
  - (* flag yes *) destruct t0; cbn [runs]; [intros b0; apply nobranch; reflexivity|].
    destruct (yes _ _ _ _ _ _ H IHDerives) as (b0 & es & Hcl & H1 & H2). exists es. split; [exact Hcl|].
    eapply ev_S2; [exact H1|exact H2|]. intros n Hn1 Hn2 s k a0 Hp Hd Hw Hk. eu. rewrite Hp, Hn1, Hn2 by auto. now rewrite snoc_args.
  - (* flag no *) destruct t0; cbn [runs]; [intros b0; apply nobranch; reflexivity|].
    destruct (no _ _ H) as (b0 & es & Hcl & H1 & H2). exists (rev es). split; [exact Hcl|].
    eapply ev_S2; [exact H1|exact H2|]. intros n Hn1 Hn2 s k a0 Hp Hd Hw Hk. eu. rewrite Hp, Hn1.
    rewrite (can _ _ _ _ _ _ Hn2). now rewrite Hp.
  - (* flags *) destruct t0; cbn [runs]; [intros b0; apply nobranch; reflexivity|].
    destruct IHDerives as (es & Hcl & H1). exists es. split; [exact Hcl|].
    eapply ev_S; [exact H1|]. intros n Hn s k a Hp Hd Hw Hk. eu. now rewrite Hn.
  - (* f end *) destruct (no _ _ H) as (b0 & es & Hcl & H1 & H2). exists (rev es). split; [exact Hcl|].
    eapply ev_S2; [exact H1|exact H2|]. intros n Hn1 Hn2 t s Hp Hd Hw. cbn [RuleModel.eng step e_flags]. unfold flags_step. rewrite Hp, Hn1.
    rewrite (can _ _ _ _ _ _ Hn2). now rewrite Hp.
  - (* f flag *) destruct (yes _ _ _ _ _ _ H IHDerives1) as (b0 & es & Hcl & H3 & H4). destruct IHDerives2 as (es2 & Hc2 & H5).
    exists (es2 ++ es). split; [now apply clean_app|]. eapply ev_S3; [exact H3|exact H4|exact H5|].
    intros n Hn3 Hn4 Hn5 t s Hp Hd Hw. cbn [RuleModel.eng step e_flags]. unfold flags_step. rewrite Hp, Hn3.
    rewrite (Hn4 s final [] Hp Hd Hw eq_refl). cbn [final k_fn app delim].
    destruct (Z.eqb_spec (Z.land z f) f); [contradiction|]. rewrite Hn5 by auto. now rewrite go_go.
  - (* rep none *) assert (HX : forall E k a s, pos s = q -> rep_run E c m i sep k a s v = k_fn k s (a ++ repeated m [] q q)).
    { intros E k a s Hp. unfold rep_run. rewrite H0. cbn [rep_loop delim]. now rewrite rep_args, Hp. }
    destruct t0; cbn [runs].
    + intros b Hb. apply runs_fin in IHDerives. destruct (IHDerives b (ev_pred _ Hb)) as (es1 & Hc1 & H1).
      exists es1. split; [exact Hc1|]. eapply ev_S; [exact H1|]. intros j Hj s k a Hp Hd Hw Hk. eu.
      rewrite (Hj s final [] Hp Hd Hw eq_refl). cbn [final k_fn app delim]. now apply HX.
    + apply runs_par in IHDerives. destruct IHDerives as (es1 & Hc1 & H1).
      exists es1. split; [exact Hc1|]. eapply ev_S; [exact H1|]. intros j Hj s k a Hp Hd Hw Hk. eu.
      rewrite (Hj s final [] Hp Hd Hw eq_refl). cbn [final k_fn app delim]. now apply HX.
  - (* rep some *) apply runs_par in IHDerives2. destruct IHDerives2 as (es2 & Hc2 & H4). destruct (IHDerives3 l eq_refl) as (es3 & Hc3 & H5).
    assert (HX : ev (fun x => forall k a s, pos s = q1 -> depth s = d -> wsf s = true ->
      rep_run (eng x) c m i sep k a s v = k_fn k (go s q (es3 ++ es2)) (a ++ repeated m (one v2 ++ l) q1 q))).
    { eapply ev_imp; [exact (ev_and _ _ H4 H5)|]. intros x [Hx4 Hx5] k a s Hp Hd Hw.
      rewrite (rep_yields (eng x) c m i sep k a s v j (Res (OTrue [VSink (one v2 ++ l)]) (go s q (es3 ++ es2)) 0) H0).
      - cbn [delim]. rewrite rep_args, Hp. reflexivity.
      - rewrite (Hx4 s final [] Hp Hd Hw eq_refl). cbn [final k_fn app delim]. rewrite Hx5 by auto. now rewrite push1, go_go. }
    destruct t0; cbn [runs].
    + intros b Hb. apply runs_fin in IHDerives1. destruct (IHDerives1 b (ev_pred _ Hb)) as (es1 & Hc1 & H6).
      exists ((es3 ++ es2) ++ es1). split; [auto using clean_app|]. eapply ev_S2; [exact H6|exact HX|]. intros x Hx1 Hx2 s k a Hp Hd Hw Hk. eu.
      rewrite (Hx1 s final [] Hp Hd Hw eq_refl). cbn [final k_fn app delim]. rewrite Hx2 by auto. now rewrite go_go.
    + apply runs_par in IHDerives1. destruct IHDerives1 as (es1 & Hc1 & H6).
      exists ((es3 ++ es2) ++ es1). split; [auto using clean_app|]. eapply ev_S2; [exact H6|exact HX|]. intros x Hx1 Hx2 s k a Hp Hd Hw Hk. eu.
      rewrite (Hx1 s final [] Hp Hd Hw eq_refl). cbn [final k_fn app delim]. rewrite Hx2 by auto. now rewrite go_go.
  - (* n end *) intros l [= <-]. exists []. split; [reflexivity|]. apply ev_0. intros n s acc Hp Hd Hw. cbn [rep_more]. now rewrite app_nil_r, go_at.
  - (* n any *) intros l [= <-]. exists []. split; [reflexivity|]. apply ev_0. intros n s acc Hp Hd Hw. cbn [rep_more]. unfold trailing_rule. eu. cbn [fst snd final k_fn app delim push].
    now rewrite app_nil_r, go_at.
  - (* n stop *) intros l [= <-]. destruct (no _ _ H) as (b0 & es & Hcl & H1 & H2). exists (rev es). split; [exact Hcl|].
    eapply ev_S2; [exact H1|exact H2|]. intros n Hn1 Hn2 s acc Hp Hd Hw. cbn [rep_more]. unfold trailing_rule. cbn [fst snd].
    destruct k; try congruence; eu; unfold p_nsep, branch_or; rewrite Hp, Hn1, (can _ _ _ _ _ _ Hn2); cbn [final k_fn app delim push];
      now rewrite Hp, app_nil_r.
  - (* n trail *) intros l [= <-]. destruct (yes _ _ _ _ _ _ H IHDerives) as (b0 & es & Hcl & H1 & H2). exists es. split; [exact Hcl|].
    eapply ev_S2; [exact H1|exact H2|]. intros n Hn1 Hn2 s acc Hp Hd Hw. cbn [rep_more]. unfold trailing_rule. cbn [fst snd]. eu.
    unfold branch_or. rewrite Hp, Hn1. rewrite (Hn2 s final [] Hp Hd Hw eq_refl). cbn [final k_fn app delim]. now rewrite push1.
  - (* n item *) intros l0 [= <-]. apply runs_par in IHDerives1. destruct IHDerives1 as (es1 & Hc1 & H1). destruct (IHDerives2 l eq_refl) as (es2 & Hc2 & H2).
    exists (es2 ++ es1). split; [now apply clean_app|]. eapply ev_imp; [exact (ev_and _ _ H1 H2)|]. intros x [Hx1 Hx2] s acc Hp Hd Hw. cbn [rep_more].
    rewrite (Hx1 s final [] Hp Hd Hw eq_refl). cbn [final k_fn app delim]. rewrite Hx2 by auto. now rewrite push1, go_go, <- app_assoc.
  - (* n sep *) intros l0 [= <-]. apply runs_par in IHDerives1. destruct IHDerives1 as (es1 & Hc1 & H3).
    apply runs_par in IHDerives2. destruct IHDerives2 as (es2 & Hc2 & H4). destruct (IHDerives3 l eq_refl) as (es3 & Hc3 & H5).
    exists (es3 ++ es2 ++ es1). split; [auto using clean_app|]. eapply ev_imp; [exact (ev_and _ _ H3 (ev_and _ _ H4 H5))|].
    intros x [Hx3 [Hx4 Hx5]] s acc Hp Hd Hw. cbn [rep_more].
    rewrite (Hx3 s final [] Hp Hd Hw eq_refl). cbn [final k_fn app delim]. rewrite (Hx4 (go s q1 es1) final [] eq_refl Hd Hw eq_refl). cbn [final k_fn app delim].
    rewrite Hx5 by auto. rewrite !push1, !go_go, <- !app_assoc. reflexivity.
  - (* comb *) destruct t0; cbn [runs]; [intros b0; apply nobranch; reflexivity|].
    assert (Hl : exists l, vs = [VSink l]) by (inversion H0; subst; eauto). destruct Hl as (l & ->).
    destruct (IHDerives l eq_refl H) as (es & Hcl & H1). exists es. split; [exact Hcl|].
    eapply ev_S; [exact H1|]. intros n Hn s k a Hp Hd Hw Hk. eu. cbn [length] in Hn. rewrite Hn by auto using agree_start. reflexivity.
  - (* comb one *) destruct t0; cbn [runs]; [intros b0; apply nobranch; reflexivity|].
    apply runs_par in IHDerives. apply one_item in IHDerives. destruct IHDerives as (es & Hcl & H1). exists es. split; [exact Hcl|].
    assert (H3 : ev (fun n => exists m, n = S m)) by (apply ev_0; eauto).
    assert (H4 : ev (fun n => forall s, pos s = p -> depth s = d -> wsf s = true ->
      e_comb (eng n) c dup (comb_choice None [r]) 1 0 [false] s [] = Res (OTrue [VSink (one v)]) (go s q es) 0)).
    { eapply ev_S2; [exact H1|exact H3|]. intros n Hn (m & ->) s Hp Hd Hw.
      change (e_comb (eng (S (S m))) c dup (comb_choice None [r]) 1 0 [false] s []) with
        (comb_step (eng (S m)) c dup (comb_choice None [r]) 1 0 [false] s []).
      unfold comb_step. cbn [Nat.leb]. rewrite Hn by auto. cbn [nth].
      cbn [RuleModel.eng step e_comb]. unfold comb_step. cbn [Nat.leb]. now rewrite push1. }
    eapply ev_S; [exact H4|]. intros n Hn s k a Hp Hd Hw Hk. eu. cbn [length repeat]. rewrite Hn by auto. reflexivity.
  - (* c all *) intros l [= <-] Hsz. exists []. split; [reflexivity|]. apply ev_0. intros n dup h s acc Ha Hp Hd Hw.
    cbn [RuleModel.eng step e_comb]. unfold comb_step. apply Nat.leb_le in H. rewrite H. now rewrite app_nil_r, go_at.
  - (* c item *) intros l0 [= <-] Hsz. apply runs_fin in IHDerives1.
    destruct (pick_item c d rs p _ H0 i r v q1 eq_refl H1 IHDerives1) as (es1 & Hc1 & H5).
    destruct (IHDerives2 l eq_refl Hsz) as (es2 & Hc2 & H6). exists (es2 ++ es1). split; [now apply clean_app|].
    assert (H7 : ev (fun n => forall s, pos s = p -> depth s = d -> wsf s = true ->
      e_parse (eng n) c (comb_choice els rs) final s [] = Res (OItem i v) (go s q1 es1) 0)).
    { rewrite (comb_choice_chc els rs Hsz ltac:(lia)). eapply ev_S; [exact H5|]. intros n Hn s Hp Hd Hw. eu. now apply Hn. }
    eapply ev_S2; [exact H7|exact H6|]. intros n Hn7 Hn6 dup h s acc Ha Hp Hd Hw.
    cbn [RuleModel.eng step e_comb]. unfold comb_step. destruct (Nat.leb_spec (length rs) (length used)); [lia|].
    rewrite Hn7 by auto. assert (Hi : i < length rs) by (apply nth_error_Some; congruence).
    destruct (nth i h false) eqn:Hn; [apply (proj2 Ha i Hi) in Hn; contradiction|].
    cbn [length] in Hn6. rewrite Hn6 by auto using agree_next. now rewrite push1, go_go, <- app_assoc.
  - (* c stop *) intros l [= <-] Hsz. destruct (pick_stop c _ _ _ H0 eq_refl) as (es & Hcl & H1). exists es. split; [exact Hcl|].
    assert (H7 : ev (fun n => forall s, pos s = p ->
      e_parse (eng n) c (comb_choice (Some RBreak) rs) final s [] = Res OBreak (go s p es) 0)).
    { rewrite (comb_choice_chc (Some RBreak) rs Hsz ltac:(lia)). eapply ev_S; [exact H1|]. intros n Hn s Hp. eu. now apply Hn. }
    eapply ev_S; [exact H7|]. intros n Hn dup h s acc Ha Hp Hd Hw.
    cbn [RuleModel.eng step e_comb]. unfold comb_step. destruct (Nat.leb_spec (length rs) (length used)); [lia|].
    rewrite Hn by auto. now rewrite app_nil_r.
  - (* no whitespace *) exists []. split; [reflexivity|]. apply ev_0. intros n s k a Hp Hw Hk. unfold ws_then. rewrite H. now rewrite go_at.
  - (* whitespace *) destruct IHDerives as (es & es2 & Hc1 & Hc2 & _ & H2 & H3).
    exists [EToken KWhitespace p q]. split; [reflexivity|]. destruct (token_rule (strip_ws w)) eqn:Ht.
    + destruct (strip_ws w) as [] eqn:Hsw; try discriminate.
      * eapply ev_imp; [exact (H3 t eq_refl eq_refl)|]. intros n Hn s k a Hp Hw Hk. unfold ws_then, skip_ws.
        rewrite H, Hk, Hw, Hsw, Hp, Hn. subst p. reflexivity.
      * exfalso. inversion H0; subst; match goal with H : Cond (RTokOf _ _) _ _ |- _ => inversion H end.
    + eapply ev_imp; [exact H2|]. intros n Hn s k a Hp Hw Hk. unfold ws_then, skip_ws. rewrite H, Hk, Hw, Ht. cbn [orb negb].
      change (Cx None 0) with sub_cx in Hn. rewrite Hn by auto. cbn [final k_fn go sub_st pos trace]. rewrite app_nil_r, clean_filter by assumption.
      rewrite <- Hp. reflexivity.
Qed.

(** ** The whole grammar *)
Lemma action_complete p vs q : Accepts inp prods p vs q ->
  ev (fun n => exists s, action inp prods n p = Res (OTrue vs) s 0 /\ pos s = q /\ clean (trace s)).
Proof.
  intros (q0 & HW & HR). apply complete in HW, HR. destruct HW as (es1 & Hc1 & H1). apply runs_par in HR. destruct HR as (es2 & Hc2 & H2).
  eapply ev_imp; [exact (ev_and _ _ H1 H2)|]. intros n [Hn1 Hn2]. unfold action, do_action.
  rewrite Hn1 by reflexivity. cbn [k_fn]. rewrite Hn2 by reflexivity. cbn [final k_fn app]. eexists. split; [reflexivity|]. split; [reflexivity|].
  cbn [emit trace go]. unfold clean in *. cbn [existsb is_err orb]. rewrite !existsb_app, Hc1, Hc2. reflexivity.
Qed.
End Complete.
