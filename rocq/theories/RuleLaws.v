(** Laws of single rules: choices, lookahead, recovery. *)
From Verif Require Import Prelude RuleModel RuleSpec RuleDen RuleGood RuleMono RuleSem.
Close Scope N_scope.

Section Laws.
Variable inp : list N.
Variable prods : nat -> production.
Notation eng := (eng inp prods).
Notation ev := (ev inp prods).
Notation Runs := (Runs inp prods).
Notation Tries := (Tries inp prods).
Notation Cancels := (Cancels inp prods).
Notation Declines := (Declines inp prods).
Notation Finishes := (Finishes inp prods).
Notation Takes := (Takes inp prods).
Notation Matches := (Matches inp prods).
Notation Skips := (Skips inp prods).
Notation mono := (mono inp prods).

(** ** C35 *)
Lemma choice_skip c b rs s es o s1 : Declines b s es ->
  Runs c (RChc (b :: rs)) s o s1 <-> Runs c (RChc rs) (emits es s) o s1.
Proof.
  intros Hd. rewrite !choice_runs. split.
  - intros [(pre & r & post & es' & bb & H1 & H2 & H3 & H4)|(Hu & -> & es' & H1 & ->)].
    + left. destruct pre as [|r0 pre]; injection H1 as -> ->.
      * exfalso. destruct Hd as (b0 & Hd & _). destruct (Tries_det _ _ _ _ _ _ _ _ Hd H3); discriminate.
      * inversion H2 as [|? ? ? e1 e2 Hd' Hs]; subst.
        assert (e1 = es) as ->.
        { destruct Hd as (b1 & A1 & A2), Hd' as (b2 & B1 & B2).
          destruct (Tries_det _ _ _ _ _ _ _ _ A1 B1) as [_ ->]. eapply Cancels_det; eauto. }
        exists pre, r, post, e2, bb. rewrite emits_app. repeat split; auto.
        apply (Skips_pos _ _ pre s); auto.
    + right. cbn in Hu. apply orb_false_iff in Hu. repeat split; [tauto|].
      inversion H1 as [|? ? ? e1 e2 Hd' Hs]; subst.
      assert (e1 = es) as ->.
      { destruct Hd as (b1 & A1 & A2), Hd' as (b2 & B1 & B2).
        destruct (Tries_det _ _ _ _ _ _ _ _ A1 B1) as [_ ->]. eapply Cancels_det; eauto. }
      exists e2. rewrite emits_app. split; auto. apply (Skips_pos _ _ rs s); auto.
  - intros [(pre & r & post & es' & bb & -> & H2 & H3 & H4)|(Hu & -> & es' & H1 & ->)].
    + left. exists (b :: pre), r, post, (es ++ es'), bb. rewrite emits_app in H4. repeat split; auto.
      constructor; auto. apply (Skips_pos _ _ pre (emits es s)); auto.
    + right. assert (H2 : Skips (b :: rs) s (es ++ es')).
      { constructor; auto. apply (Skips_pos _ _ rs (emits es s)); auto. }
      repeat split.
      * apply (Skips_cond _ _ _ _ _ H2).
      * exists (es ++ es'). rewrite emits_app. auto.
Qed.

(** The same run with and without the branch: only [es] is in between. *)
Lemma choice_untaken c b rs s es o : Declines b s es ->
  (forall s1, Runs c (RChc (b :: rs)) s o s1 ->
     exists s2, s1 = addt (rev es ++ trace s) s2 /\ Runs c (RChc rs) s o (addt (trace s) s2)) /\
  (forall s1, Runs c (RChc rs) s o s1 ->
     exists s2, s1 = addt (trace s) s2 /\ Runs c (RChc (b :: rs)) s o (addt (rev es ++ trace s) s2)).
Proof.
  intros Hd. split; intros s1.
  - rewrite (choice_skip c b rs s es o s1 Hd). rewrite Runs_clear. intros (s2 & H & ->).
    exists s2. split; [reflexivity|]. apply Runs_clear. exists s2. auto.
  - intros H. apply Runs_clear in H. destruct H as (s2 & H & ->). exists s2. split; auto.
    apply (choice_skip c b rs s es _ _ Hd). apply Runs_clear. exists s2. auto.
Qed.

Lemma branch_or_declines c r k s a other es x : Declines r s es -> x <> NoFuel ->
  ev (fun E => other E (emits es s)) x -> ev (fun E => branch_or E c r k s a (other E)) x.
Proof.
  intros Hd Hx H. apply branch_or_ev; auto using mono_parse. right. left. eauto.
Qed.

Lemma if_declines c b s es : Declines b s es -> Runs c (RIf b) s (OTrue []) (emits es s).
Proof.
  intros Hd. apply Runs_shift. exists 0. cbn [parse_step].
  apply (branch_or_declines c b final s [] (fun _ s => k_fn final s []) es); auto; [discriminate|].
  now apply ev_const.
Qed.
Lemma opt_declines c b s es : Declines b s es -> Runs c (ROpt b) s (OTrue [VNull]) (emits es s).
Proof.
  intros Hd. apply Runs_shift. exists 0. cbn [parse_step].
  apply (branch_or_declines c b final s [] (fun _ s => k_fn final s ([] ++ [VNull])) es); auto; [discriminate|].
  now apply ev_const.
Qed.
Lemma while_declines c b s es : Declines b s es -> Runs c (RWhile b) s (OTrue []) (emits es s).
Proof.
  intros (bb & Ht & Hc). apply Runs_shift. exists 0. cbn [parse_step].
  apply (ev_bind inp prods BNoFuel NoFuel (fun E => e_try E b (vars s) (pos s))
    (fun E y => match y with
      | BR true bs => delim (e_finish E c b bs final s []) (fun s _ => e_parse E c (RWhile b) final s [])
      | BR false bs => cancel_then E b bs s (fun s => k_fn final s [])
      | BNoFuel => NoFuel
      | BCrash => Crash end)); auto using mono_try; [discriminate|].
  exists (BR false bb). split; auto. unfold cancel_then.
  apply (ev_bind inp prods None NoFuel (fun E => e_cancel E b bb)
    (fun E y => match y with Some es => k_fn final (emits es s) [] | None => NoFuel end));
    auto using mono_cancel; [discriminate|].
  exists (Some es). split; auto. now apply ev_const.
Qed.

Lemma if_takes c b s o s' : Takes c b s o s' -> Runs c (RIf b) s o s'.
Proof.
  intros (bb & Ht & m & Hf). apply Runs_shift. exists m. cbn [parse_step].
  apply branch_or_ev; auto using mono_parse; [discriminate|]. left. eauto.
Qed.
Lemma opt_takes c b s o s' : Takes c b s o s' -> Runs c (ROpt b) s o s'.
Proof.
  intros (bb & Ht & m & Hf). apply Runs_shift. exists m. cbn [parse_step].
  apply branch_or_ev; auto using mono_parse; [discriminate|]. left. eauto.
Qed.

(** ** C37 *)
Lemma matches_tok t p ok e : Matches (RTok t) p ok e <-> tk_try t inp p = (ok, e).
Proof.
  unfold RuleSem.Matches. cbn [tmatch]. rewrite ev_const. destruct (tk_try t inp p) as [ok' e']. cbn.
  split; intros [= -> ->]; reflexivity.
Qed.

Lemma run_token_ev r p ok e :
  ev (fun E => run_token E r p) (TR ok e) <->
  exists o s', Runs sub_cx r (sub_st p) o s' /\ pos s' = e /\
    (o = OFalse /\ ok = false \/
     (exists vs, o = OTrue vs) /\ ok = negb (existsb is_err (trace s'))).
Proof.
  unfold run_token.
  rewrite (ev_bind inp prods NoFuel TNoFuel (fun E => e_parse E sub_cx r final (sub_st p) [])
    (fun _ y => match y with
      | Res (OTrue _) s _ => TR (negb (existsb is_err (trace s))) (pos s)
      | Res OFalse s _ => TR false (pos s)
      | Res _ _ _ => TCrash
      | NoFuel => TNoFuel
      | Crash => TCrash end)); auto using mono_parse; [|discriminate].
  split.
  - intros ([[] s m| |] & H1 & H2); apply ev_const in H2; try discriminate; injection H2 as <- <-.
    + exists OFalse, s. repeat split; [now exists m|]. auto.
    + exists (OTrue vs), s. repeat split; [now exists m|]. right. eauto.
  - intros (o & s' & [m H] & <- & [[-> ->]|[[vs ->] ->]]); eexists; (split; [exact H|]); now apply ev_const.
Qed.

Lemma matches_rule r p ok e : token_rule r = false ->
  Matches r p ok e <->
  exists o s', Runs sub_cx r (sub_st p) o s' /\ pos s' = e /\
    (o = OFalse /\ ok = false \/
     (exists vs, o = OTrue vs) /\ ok = negb (existsb is_err (trace s'))).
Proof.
  intros Hr. rewrite <- run_token_ev. unfold RuleSem.Matches. apply ev_ext. intros E.
  destruct r; try discriminate; reflexivity.
Qed.

Lemma matches_tokof k r p ok e :
  Matches (RTokOf k r) p ok e <->
  exists o s', Runs sub_cx r (sub_st p) o s' /\ pos s' = e /\
    (o = OFalse /\ ok = false \/
     (exists vs, o = OTrue vs) /\ ok = negb (existsb is_err (trace s'))).
Proof. rewrite <- run_token_ev. unfold RuleSem.Matches. apply ev_ext. reflexivity. Qed.

Lemma tmatch_ev (J : bool -> nat -> res) r p o s' m :
  ev (fun E => match tmatch inp E r p with TR ok e => J ok e | TNoFuel => NoFuel | TCrash => Crash end)
     (Res o s' m) <->
  exists ok e, Matches r p ok e /\ J ok e = Res o s' m.
Proof.
  rewrite (ev_bind inp prods TNoFuel NoFuel (fun E => tmatch inp E r p)
    (fun _ y => match y with TR ok e => J ok e | TNoFuel => NoFuel | TCrash => Crash end));
    auto using mono_tmatch; [|discriminate].
  split.
  - intros ([ok e| |] & H1 & H2); apply ev_const in H2; try discriminate. eauto.
  - intros (ok & e & H1 & H2). exists (TR ok e). split; auto. now apply ev_const.
Qed.

Lemma peek_runs c r t s o s' :
  Runs c (RPeek r t) s o s' <->
  exists ok e, Matches r (pos s) ok e /\ o = OTrue [] /\
    s' = emit (EBack (pos s) e) (if ok then s else emit (EError t (pos s) e) s).
Proof.
  rewrite Runs_shift. cbn [parse_step]. split.
  - intros [m H].
    apply (tmatch_ev (fun ok e => k_fn final (emit (EBack (pos s) e)
       (if ok then s else emit (EError t (pos s) e) s)) [])) in H.
    destruct H as (ok & e & H1 & [= <- <- _]). eauto.
  - intros (ok & e & H & -> & ->). exists 0.
    apply (tmatch_ev (fun ok e => k_fn final (emit (EBack (pos s) e)
       (if ok then s else emit (EError t (pos s) e) s)) [])). eauto.
Qed.

Lemma peek_not_runs c r t s o s' :
  Runs c (RPeekN r t) s o s' <->
  exists ok e, Matches r (pos s) ok e /\ o = OTrue [] /\
    s' = if ok
         then setpos e (emits [EError t (pos s) e; ERStart (pos s); EToken KError (pos s) e; ERFinish e] s)
         else emit (EBack (pos s) e) s.
Proof.
  rewrite Runs_shift. cbn [parse_step].
  set (J := fun (ok : bool) e => if ok
     then k_fn final (setpos e (emit (ERFinish e) (emit (EToken KError (pos s) e)
                   (emit (ERStart (pos s)) (emit (EError t (pos s) e) s))))) []
     else k_fn final (emit (EBack (pos s) e) s) []).
  assert (HJ : forall m x, ev (fun E => match tmatch inp E r (pos s) with
      | TR true e => k_fn final (setpos e (emit (ERFinish e) (emit (EToken KError (pos s) e)
                   (emit (ERStart (pos s)) (emit (EError t (pos s) e) s))))) []
      | TR false e => k_fn final (emit (EBack (pos s) e) s) []
      | TNoFuel => NoFuel | TCrash => Crash end) (Res o x m) <->
      ev (fun E => match tmatch inp E r (pos s) with TR ok e => J ok e | TNoFuel => NoFuel | TCrash => Crash end)
         (Res o x m)).
  { intros m x. apply ev_ext. intros E. destruct (tmatch inp E r (pos s)) as [[|] e| |]; reflexivity. }
  split.
  - intros [m H]. apply HJ, tmatch_ev in H. destruct H as ([|] & e & H1 & [= <- <- _]); eauto 6.
  - intros (ok & e & H & -> & ->). exists 0. apply HJ, tmatch_ev. exists ok, e. split; auto.
    destruct ok; reflexivity.
Qed.

(** *** The search of find and lookahead *)
(** At [b] the finder reacts for the first time, or [b] is the end of the input and it never does. *)
Definition first_at (f : finder) (p b : nat) (found : bool) : Prop :=
  p <= b <= length inp /\ (forall q, p <= q < b -> fd_try f inp q = None) /\
  (exists e, fd_try f inp b = Some (found, e)) \/
  (found = false /\ b = length inp /\ forall q, p <= q <= length inp -> fd_try f inp q = None).

Lemma search_spec f : forall n p, p + n = length inp ->
  exists found b e, search inp f n p = (found, b, e) /\ first_at f p b found /\
    (fd_try f inp b = Some (found, e) \/ fd_try f inp b = None /\ e = b).
Proof.
  induction n as [|n IH]; intros p Hp; cbn [search].
  - destruct (fd_try f inp p) as [[[|] e]|] eqn:Hf.
    + exists true, p, e. repeat split; auto. left. split; [lia|]. split; [intros; lia|eauto].
    + exists false, p, e. repeat split; auto. left. split; [lia|]. split; [intros; lia|eauto].
    + exists false, p, p. repeat split; auto. right. repeat split; [lia|].
      intros q Hq. now replace q with p by lia.
  - destruct (fd_try f inp p) as [[[|] e]|] eqn:Hf.
    + exists true, p, e. repeat split; auto. left. split; [lia|]. split; [intros; lia|eauto].
    + exists false, p, e. repeat split; auto. left. split; [lia|]. split; [intros; lia|eauto].
    + destruct (IH (S p)) as (fo & b & e & Hs & Hfi & He); [lia|].
      exists fo, b, e. repeat split; auto.
      destruct Hfi as [(H1 & H2 & H3)|(H1 & H2 & H3)].
      * left. split; [lia|]. split; auto. intros q Hq.
        destruct (Nat.eq_dec q p) as [->|]; auto. apply H2. lia.
      * right. repeat split; auto. intros q Hq.
        destruct (Nat.eq_dec q p) as [->|]; auto. apply H3. lia.
Qed.

Lemma search_from_spec f p : p <= length inp ->
  exists found b e, search_from inp f p = (found, b, e) /\ first_at f p b found /\
    (fd_try f inp b = Some (found, e) \/ fd_try f inp b = None /\ e = b).
Proof. intros H. apply search_spec. lia. Qed.

Lemma first_at_det f p b b' x x' : first_at f p b x -> first_at f p b' x' -> b = b' /\ x = x'.
Proof.
  intros [(H1 & H2 & e & H3)|(-> & -> & H3)] [(H1' & H2' & e' & H3')|(-> & -> & H3')].
  - assert (~ b < b') by (intros ?; rewrite H2' in H3 by lia; discriminate).
    assert (~ b' < b) by (intros ?; rewrite H2 in H3' by lia; discriminate).
    assert (b = b') as -> by lia. split; congruence.
  - rewrite H3' in H3 by lia. discriminate.
  - rewrite H3 in H3' by lia. discriminate.
  - auto.
Qed.

Lemma lookahead_tries f t s ok b : pos s <= length inp ->
  Tries (RLook f t) s ok b -> exists q, first_at f (pos s) q ok.
Proof.
  intros Hp H. unfold RuleSem.Tries in H. apply ev_shift in H. cbn [step e_try try_step] in H.
  destruct (search_from_spec f (pos s) Hp) as (fo & q & e & Hs & Hf & _). rewrite Hs in H.
  apply ev_const in H. injection H as <- _. eauto.
Qed.

Lemma lookahead_runs c f t s o s' : pos s <= length inp ->
  Runs c (RLook f t) s o s' ->
  exists q found e, first_at f (pos s) q found /\ o = OTrue [] /\
    s' = emit (EBack (pos s) e) (if found then s else emit (EError t (pos s) e) s).
Proof.
  intros Hp. rewrite Runs_shift. cbn [parse_step]. intros [m H].
  destruct (search_from_spec f (pos s) Hp) as (fo & q & e & Hs & Hf & _). rewrite Hs in H.
  apply ev_const in H. injection H as <- <- _. exists q, fo, e. auto.
Qed.

Lemma find_runs c f s o s' : pos s <= length inp ->
  Runs c (RFind f) s o s' <->
  exists q found, first_at f (pos s) q found /\
    o = (if found then OTrue [] else OFalse) /\
    s' = setpos q (emits [ERStart (pos s); EToken KError (pos s) q;
                          if found then ERFinish q else ERCancel q] s).
Proof.
  intros Hp. rewrite Runs_shift. cbn [parse_step]. unfold p_find.
  destruct (search_from_spec f (pos s) Hp) as (fo & q & e & Hs & Hf & _). rewrite Hs. split.
  - intros [m H]. destruct fo; apply ev_const in H; injection H as <- <- _; exists q; eexists; eauto.
  - intros (q' & fo' & Hf' & -> & ->). destruct (first_at_det _ _ _ _ _ _ Hf Hf') as [<- <-].
    exists 0. destruct fo; apply ev_const; reflexivity.
Qed.

(** ** Denotations with some fuel *)
Lemma den c r nb s n : pos s <= length inp ->
  exists d, is_den nb (fun k a => e_parse (eng n) c r k s a) d.
Proof.
  intros Hs. destruct (ge_parse _ _ _ (eng_good inp prods n) c r nb s Hs) as (d & Hd & _). eauto.
Qed.

(** ** C39: try_ *)
Definition recovery (rec : option rule) : rule :=
  match rec with
  | Some (RFind f) => RFind f
  | Some (RReco l bs) => RReco l bs
  | rec => RRecW rec
  end.

Lemma try_recover_eq E c rec k s a : try_recover E c rec k s a = e_parse E c (recovery rec) k s a.
Proof. destruct rec as [[]|]; reflexivity. Qed.

Lemma try_runs c r rec s o s' : pos s <= length inp ->
  Runs c (RTry r rec) s o s' ->
  (exists s1, Runs c r s OFalse s1 /\ Runs c (recovery rec) s1 o s') \/
  (exists vs, o = OTrue vs /\ Runs c r s (OTrue vs) s').
Proof.
  intros Hp H. apply Runs_shift in H. destruct H as [m H]. apply ev_at in H. destruct H as [n H].
  cbn [parse_step] in H. unfold p_try in H.
  destruct (den c r false s n Hp) as [d Hd].
  pose proof (Hd final [] eq_refl) as H1. cbn beta in H1.
  pose proof (Hd (try_cont (eng n) c None final) [] eq_refl) as H2. cbn beta in H2. rewrite H2 in H.
  destruct d as [o1 s1|l s1 vs| |]; cbn [apply] in *; try discriminate.
  - destruct o1; cbn [sto app try_after] in *; try discriminate.
    left. exists s1. split; [eapply parse_Runs; eauto|]. rewrite try_recover_eq in H.
    eapply parse_Runs; eauto.
  - cbn [try_cont k_fn final mark] in H. rewrite posts_Res in H. cbn [try_after app] in H.
    cbn [k_fn final app] in H1. rewrite posts_Res in H1.
    right. injection H as <- <- _. exists vs. split; auto. eapply parse_Runs; eauto.
Qed.

Lemma try_recovers c r rec s s1 o s' : pos s <= length inp ->
  Runs c r s OFalse s1 -> Runs c (recovery rec) s1 o s' -> Runs c (RTry r rec) s o s'.
Proof.
  intros Hp [m1 H1] [m2 H2]. apply Runs_shift. exists m2. cbn [parse_step]. unfold p_try.
  destruct H1 as [N1 H1], H2 as [N2 H2]. exists (N1 + N2). intros n Hn.
  destruct (den c r false s n Hp) as [d Hd].
  pose proof (Hd final [] eq_refl) as H3. cbn beta in H3. rewrite H1 in H3 by lia.
  rewrite (Hd (try_cont (eng n) c None final) [] eq_refl).
  destruct d as [o1 s2|l s2 vs| |]; cbn [apply] in *; try discriminate.
  - destruct o1; cbn [sto app] in *; try discriminate. injection H3 as <- _. cbn [try_after].
    rewrite try_recover_eq. apply H2. lia.
  - cbn [k_fn final app] in H3. rewrite posts_Res in H3. discriminate.
Qed.

End Laws.
