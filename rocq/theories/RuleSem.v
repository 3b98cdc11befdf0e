(** What the engine does, without fuel: [ev F x] says that [F] evaluates to [x] for every
    sufficient amount of fuel.  The relations below are the vocabulary of the statements about
    single rules. *)
From Verif Require Import Prelude RuleModel RuleSpec RuleDen RuleGood RuleMono.
Close Scope N_scope.

Section Ev.
Variable inp : list N.
Variable prods : nat -> production.
Notation eng := (eng inp prods).

Definition ev {A} (F : engine -> A) (x : A) : Prop := exists N, forall n, N <= n -> F (eng n) = x.

(** Running a rule [r] on its own in state [s]: outcome and final state. *)
Definition Runs (c : cx) (r : rule) (s : st) (o : out) (s' : st) : Prop :=
  exists m, ev (fun E => e_parse E c r final s []) (Res o s' m).
(** The condition of the branch rule [r] does (not) match in state [s]. *)
Definition Tries (r : rule) (s : st) (ok : bool) (b : bst) : Prop :=
  ev (fun E => e_try E r (vars s) (pos s)) (BR ok b).
Definition Cancels (r : rule) (b : bst) (es : list event) : Prop :=
  ev (fun E => e_cancel E r b) (Some es).
(** The condition of [r] does not match; cancelling it leaves the events [es]. *)
Definition Declines (r : rule) (s : st) (es : list event) : Prop :=
  exists b, Tries r s false b /\ Cancels r b es.
(** [r] is finished after its condition matched in state [s0], with the branch data [b]. *)
Definition Finishes (c : cx) (r : rule) (b : bst) (s : st) (o : out) (s' : st) : Prop :=
  exists m, ev (fun E => e_finish E c r b final s []) (Res o s' m).
(** The condition of [r] matches and [r] is then parsed. *)
Definition Takes (c : cx) (r : rule) (s : st) (o : out) (s' : st) : Prop :=
  exists b, Tries r s true b /\ Finishes c r b s o s'.
(** A token (or the rule of token(), peek(), ...) matches at [p], up to [e]. *)
Definition Matches (r : rule) (p : nat) (ok : bool) (e : nat) : Prop :=
  ev (fun E => tmatch inp E r p) (TR ok e).

Definition mono {A} (bot : A) (F : engine -> A) : Prop :=
  forall n m, n <= m -> F (eng n) = F (eng m) \/ F (eng n) = bot.

Lemma ev_det {A} (F : engine -> A) x y : ev F x -> ev F y -> x = y.
Proof.
  intros [N H] [M H']. rewrite <- (H (N + M)), <- (H' (N + M)) by lia. reflexivity.
Qed.

Lemma ev_shift {A} (F : engine -> A) x : ev F x <-> ev (fun E => F (step inp prods E)) x.
Proof.
  split; intros [N H].
  - exists N. intros n Hn. apply (H (S n)). lia.
  - exists (S N). intros [|n] Hn; [lia|]. apply H. lia.
Qed.

Lemma ev_of {A} (bot : A) F n x : mono bot F -> F (eng n) = x -> x <> bot -> ev F x.
Proof.
  intros Hm H Hx. exists n. intros m Hl. destruct (Hm n m Hl); congruence.
Qed.

Lemma ev_at {A} (F : engine -> A) x : ev F x -> exists n, F (eng n) = x.
Proof. intros [N H]. exists N. now apply H. Qed.

Lemma ev_const {A} (x y : A) : ev (fun _ => x) y <-> x = y.
Proof. split; [intros [N H]; now apply (H N)|intros ->; now exists 0]. Qed.

Lemma ev_ext {A} (F G : engine -> A) x : (forall E, F E = G E) -> ev F x <-> ev G x.
Proof. intros H. split; intros [N HN]; exists N; intros n Hn; [rewrite <- H|rewrite H]; auto. Qed.

Lemma ev_bind {A B} (bot : A) (bot' : B) (F : engine -> A) (G : engine -> A -> B) x :
  mono bot F -> (forall E, G E bot = bot') -> x <> bot' ->
  ev (fun E => G E (F E)) x <-> exists y, ev F y /\ ev (fun E => G E y) x.
Proof.
  intros Hm Hb Hx. split.
  - intros [N H]. exists (F (eng N)).
    assert (Hn : F (eng N) <> bot) by (intros He; apply Hx; rewrite <- (H N), He; auto).
    assert (Hv : ev F (F (eng N))) by (eapply ev_of; eauto).
    split; [exact Hv|]. exists N. intros n Hl. rewrite <- (H n Hl).
    f_equal. destruct (Hm N n Hl); congruence.
  - intros (y & [N HN] & [M HM]). exists (N + M). intros n Hn. rewrite HN by lia. apply HM. lia.
Qed.

Lemma kr_refl k : kr true [] k k.
Proof. split; auto. intros s a. left. now rewrite addr_nil, addt_nil. Qed.

Lemma rr_mono (F : engine -> res) :
  (forall E E', par true E E' -> rr true [] (F E) (F E')) -> mono NoFuel F.
Proof.
  intros H n m Hl. pose proof (H _ _ (par_eng inp prods n m Hl)) as Hr.
  unfold rr in Hr. rewrite addr_nil in Hr. destruct Hr as [Hr|[_ Hr]]; auto.
Qed.

Ltac mono_res L := apply rr_mono; intros E E' HE;
  match goal with |- rr _ _ _ (?f _ _ _ ?s _) => idtac | _ => idtac end; L.

Lemma mono_parse c r k s a : mono NoFuel (fun E => e_parse E c r k s a).
Proof.
  apply rr_mono. intros E E' HE. pose proof (par_parse _ _ _ HE [] c r k k s a (kr_refl k)) as H.
  now rewrite addt_nil in H.
Qed.
Lemma mono_finish c r b k s a : mono NoFuel (fun E => e_finish E c r b k s a).
Proof.
  apply rr_mono. intros E E' HE. pose proof (par_finish _ _ _ HE [] c r b k k s a (kr_refl k)) as H.
  now rewrite addt_nil in H.
Qed.
Lemma mono_lst c i sep s acc : mono NoFuel (fun E => e_lst E c i sep s acc).
Proof.
  apply rr_mono. intros E E' HE. pose proof (par_lst _ _ _ HE [] c i sep s acc) as H.
  now rewrite addt_nil in H.
Qed.
Lemma mono_lstt c te i sep lim ls sp s acc : mono NoFuel (fun E => e_lstt E c te i sep lim ls sp s acc).
Proof.
  apply rr_mono. intros E E' HE. pose proof (par_lstt _ _ _ HE [] c te i sep lim ls sp s acc) as H.
  now rewrite addt_nil in H.
Qed.
Lemma mono_comb c d al n cnt h s acc : mono NoFuel (fun E => e_comb E c d al n cnt h s acc).
Proof.
  apply rr_mono. intros E E' HE. pose proof (par_comb _ _ _ HE [] c d al n cnt h s acc) as H.
  now rewrite addt_nil in H.
Qed.
Lemma mono_flags c r t z s : mono NoFuel (fun E => e_flags E c r t z s).
Proof.
  apply rr_mono. intros E E' HE. pose proof (par_flags _ _ _ HE [] c r t z s) as H.
  now rewrite addt_nil in H.
Qed.
Lemma mono_reco c lim al b k s a : mono NoFuel (fun E => e_reco E c lim al b k s a).
Proof.
  apply rr_mono. intros E E' HE. pose proof (par_reco _ _ _ HE [] c lim al b k k s a (kr_refl k)) as H.
  now rewrite addt_nil in H.
Qed.
Lemma mono_try r vs p : mono BNoFuel (fun E => e_try E r vs p).
Proof.
  intros n m Hl. destruct (par_try _ _ _ (par_eng inp prods n m Hl) r vs p) as [H|[_ H]]; auto.
Qed.
Lemma mono_cancel r b : mono None (fun E => e_cancel E r b).
Proof.
  intros n m Hl. destruct (par_cancel _ _ _ (par_eng inp prods n m Hl) r b) as [H|[_ H]]; auto.
Qed.
Lemma mono_tmatch r p : mono TNoFuel (fun E => tmatch inp E r p).
Proof.
  intros n m Hl. destruct (par_tmatch inp true _ _ (par_eng inp prods n m Hl) r p) as [H|[_ H]]; auto.
Qed.
Lemma mono_wsloop r p : mono TNoFuel (fun E => e_wsloop E r p).
Proof.
  intros n m Hl. destruct (par_ws _ _ _ (par_eng inp prods n m Hl) r p) as [H|[_ H]]; auto.
Qed.

(** ** Determinism *)
Lemma Runs_det c r s o s' o2 s2 : Runs c r s o s' -> Runs c r s o2 s2 -> o = o2 /\ s' = s2.
Proof.
  intros [m H] [m2 H2]. pose proof (ev_det _ _ _ H H2) as [= -> -> _]. auto.
Qed.
Lemma Tries_det r s ok b ok' b' : Tries r s ok b -> Tries r s ok' b' -> ok = ok' /\ b = b'.
Proof. intros H H2. pose proof (ev_det _ _ _ H H2) as [= -> ->]. auto. Qed.
Lemma Cancels_det r b es es' : Cancels r b es -> Cancels r b es' -> es = es'.
Proof. intros H H2. now pose proof (ev_det _ _ _ H H2) as [= ->]. Qed.
Lemma Finishes_det c r b s o s' o2 s2 : Finishes c r b s o s' -> Finishes c r b s o2 s2 -> o = o2 /\ s' = s2.
Proof.
  intros [m H] [m2 H2]. pose proof (ev_det _ _ _ H H2) as [= -> -> _]. auto.
Qed.
Lemma Matches_det r p ok e ok' e' : Matches r p ok e -> Matches r p ok' e' -> ok = ok' /\ e = e'.
Proof. intros H H2. pose proof (ev_det _ _ _ H H2) as [= -> ->]. auto. Qed.

Lemma Cancels_debug r b es : Cancels r b es -> debug es.
Proof.
  intros H. apply ev_at in H. destruct H as [n H].
  eapply (ge_cancel _ _ _ (eng_good inp prods n)); eauto.
Qed.

Lemma Declines_debug r s es : Declines r s es -> debug es.
Proof. intros (b & _ & H). eapply Cancels_debug; eauto. Qed.

Lemma Declines_Takes r s es c o s' : Declines r s es -> Takes c r s o s' -> False.
Proof.
  intros (b & H & _) (b' & H' & _). destruct (Tries_det _ _ _ _ _ _ H H') as [H1 _]. discriminate.
Qed.

(** ** From results with some fuel *)
Lemma parse_Runs n c r s o s' m : e_parse (eng n) c r final s [] = Res o s' m -> Runs c r s o s'.
Proof. intros H. exists m. eapply ev_of; [apply mono_parse|exact H|discriminate]. Qed.
Lemma finish_Finishes n c r b s o s' m :
  e_finish (eng n) c r b final s [] = Res o s' m -> Finishes c r b s o s'.
Proof. intros H. exists m. eapply ev_of; [apply mono_finish|exact H|discriminate]. Qed.
Lemma try_Tries n r s ok b : e_try (eng n) r (vars s) (pos s) = BR ok b -> Tries r s ok b.
Proof. intros H. eapply ev_of; [apply mono_try|exact H|discriminate]. Qed.
Lemma cancel_Cancels n r b es : e_cancel (eng n) r b = Some es -> Cancels r b es.
Proof. intros H. eapply ev_of; [apply mono_cancel|exact H|discriminate]. Qed.
Lemma tmatch_Matches n r p ok e : tmatch inp (eng n) r p = TR ok e -> Matches r p ok e.
Proof. intros H. eapply ev_of; [apply mono_tmatch|exact H|discriminate]. Qed.

Lemma Runs_at c r s o s' : Runs c r s o s' -> exists n m, e_parse (eng n) c r final s [] = Res o s' m.
Proof. intros [m H]. apply ev_at in H. destruct H as [n H]. eauto. Qed.

(** ** Earlier events do not matter *)
Definition clear (s : st) : st := St (pos s) (depth s) (wsf s) (vars s) [].

Lemma clear_addt s : addt (trace s) (clear s) = s.
Proof. now destruct s. Qed.

Lemma clear_emits es s : clear (emits es s) = clear s.
Proof. reflexivity. Qed.

Lemma parse_addt n c r t s : e_parse (eng n) c r final (addt t s) [] = addr t (e_parse (eng n) c r final s []).
Proof.
  pose proof (par_parse _ _ _ (par_refl inp prods n) t c r final final s [] (kr_final _ t)) as H.
  destruct H as [H|[H _]]; [auto|discriminate].
Qed.

Lemma finish_addt n c r b t s :
  e_finish (eng n) c r b final (addt t s) [] = addr t (e_finish (eng n) c r b final s []).
Proof.
  pose proof (par_finish _ _ _ (par_refl inp prods n) t c r b final final s [] (kr_final _ t)) as H.
  destruct H as [H|[H _]]; [auto|discriminate].
Qed.

Lemma Runs_addt c r t s o s' : Runs c r s o s' -> Runs c r (addt t s) o (addt t s').
Proof.
  intros [m [N H]]. exists m, N. intros n Hn. now rewrite parse_addt, H.
Qed.

Lemma Runs_addt_inv c r t s o s1 : Runs c r (addt t s) o s1 -> exists s', Runs c r s o s' /\ s1 = addt t s'.
Proof.
  intros H. apply Runs_at in H. destruct H as (n & m & H). rewrite parse_addt in H.
  destruct (e_parse (eng n) c r final s []) as [o2 s2 m2| |] eqn:He; try discriminate.
  injection H as -> <- ->. exists s2. split; auto. eapply parse_Runs; eauto.
Qed.

Lemma Runs_clear c r s o s1 :
  Runs c r s o s1 <-> exists s', Runs c r (clear s) o s' /\ s1 = addt (trace s) s'.
Proof.
  split.
  - intros H. apply Runs_addt_inv. now rewrite clear_addt.
  - intros (s' & H & ->). rewrite <- (clear_addt s) at 1. now apply Runs_addt.
Qed.

(** ** Choice *)
Lemma branch_or_ev c r k s a other x : x <> NoFuel ->
  mono NoFuel (fun E => e_parse E c r k s a) ->
  (ev (fun E => branch_or E c r k s a (other E)) x <->
   (exists b, Tries r s true b /\ ev (fun E => e_finish E c r b k s a) x) \/
   (exists es, Declines r s es /\ ev (fun E => other E (emits es s)) x) \/
   (x = Crash /\ ev (fun E => e_try E r (vars s) (pos s)) BCrash)).
Proof.
  intros Hx _. unfold branch_or.
  rewrite (ev_bind BNoFuel NoFuel (fun E => e_try E r (vars s) (pos s))
     (fun E y => match y with
                 | BR true bs => e_finish E c r bs k s a
                 | BR false bs => cancel_then E r bs s (other E)
                 | BNoFuel => NoFuel
                 | BCrash => Crash
                 end)); auto using mono_try.
  assert (Hc : forall b, ev (fun E => cancel_then E r b s (other E)) x <->
     exists es, Cancels r b es /\ ev (fun E => other E (emits es s)) x).
  { intros b. unfold cancel_then.
    rewrite (ev_bind None NoFuel (fun E => e_cancel E r b)
       (fun E y => match y with Some es => other E (emits es s) | None => NoFuel end));
      auto using mono_cancel.
    split.
    - intros ([es|] & H1 & H2); [eauto|]. apply ev_const in H2. congruence.
    - intros (es & H1 & H2). exists (Some es). auto. }
  split.
  - intros ([[|] b| |] & H1 & H2).
    + left. eauto.
    + right. left. apply Hc in H2. destruct H2 as (es & H2 & H3). exists es. split; auto. exists b. auto.
    + apply ev_const in H2. congruence.
    + right. right. apply ev_const in H2. auto.
  - intros [(b & H1 & H2)|[(es & (b & H1 & H2) & H3)|[-> H]]].
    + exists (BR true b). auto.
    + exists (BR false b). split; auto. apply Hc. eauto.
    + exists BCrash. split; auto. now apply ev_const.
Qed.

Lemma Runs_shift c r s o s' :
  Runs c r s o s' <-> exists m, ev (fun E => parse_step inp prods E c r final s []) (Res o s' m).
Proof.
  unfold Runs. split; intros [m H]; exists m.
  - apply ev_shift in H. exact H.
  - apply ev_shift. exact H.
Qed.

Lemma Finishes_shift c r b s o s' :
  Finishes c r b s o s' <-> exists m, ev (fun E => finish_step inp prods E c r b final s []) (Res o s' m).
Proof.
  unfold Finishes. split; intros [m H]; exists m.
  - apply ev_shift in H. exact H.
  - apply ev_shift. exact H.
Qed.

(** The alternatives [rs] are tried in turn and none matches. *)
Inductive Skips : list rule -> st -> list event -> Prop :=
| Skips_nil s : Skips [] s []
| Skips_cons r rs s es es' : Declines r s es -> Skips rs s es' -> Skips (r :: rs) s (es ++ es').

Lemma Declines_pos r s s' es : pos s = pos s' -> vars s = vars s' -> Declines r s es -> Declines r s' es.
Proof. unfold Declines, Tries. intros -> ->. auto. Qed.

Lemma Skips_pos rs s s' es : pos s = pos s' -> vars s = vars s' -> Skips rs s es -> Skips rs s' es.
Proof.
  intros H1 H2 H. induction H; constructor; auto. eapply Declines_pos; eauto.
Qed.

Lemma emits_app es es' s : emits es' (emits es s) = emits (es ++ es') s.
Proof. unfold emits. cbn. now rewrite rev_app_distr, app_assoc. Qed.

Lemma emits_nil s : emits [] s = s.
Proof. now destruct s. Qed.

Lemma Skips_debug rs s es : Skips rs s es -> debug es.
Proof.
  induction 1; [constructor|]. apply debug_app; auto. eapply Declines_debug; eauto.
Qed.

Lemma p_chc_ev c u o s' m rs : forall s,
  ev (fun E => p_chc E c u rs final s []) (Res o s' m) <->
  (exists pre r post es b, rs = pre ++ r :: post /\ Skips pre s es /\ Tries r s true b /\
     ev (fun E => e_finish E c r b final (emits es s) []) (Res o s' m)) \/
  (u = false /\ m = 0 /\ o = OFalse /\ exists es, Skips rs s es /\
     s' = emit (EError TExhausted (pos s) (pos s)) (emits es s)).
Proof.
  induction rs as [|r rs IH]; intros s.
  - cbn [p_chc]. split.
    + intros H. right. destruct u; apply ev_const in H; [discriminate|].
      injection H as <- <- <-. repeat split. exists []. split; [constructor|]. now rewrite emits_nil.
    + intros [(pre & r & post & es & b & H & _)|(-> & -> & -> & es & H & ->)].
      * destruct pre; discriminate.
      * inversion H; subst. rewrite emits_nil. now apply ev_const.
  - cbn [p_chc]. rewrite branch_or_ev; [|discriminate|apply mono_parse].
    split.
    + intros [(b & H1 & H2)|[(es & H1 & H2)|[H _]]]; [| |discriminate].
      * left. exists [], r, rs, [], b. rewrite emits_nil. repeat split; auto. constructor.
      * apply IH in H2.
        destruct H2 as [(pre & r' & post & es' & b & -> & H3 & H4 & H5)|(-> & -> & -> & es' & H3 & ->)].
        -- left. exists (r :: pre), r', post, (es ++ es'), b. rewrite emits_app in H5.
           repeat split; auto. constructor; auto. apply (Skips_pos pre (emits es s) s); auto.
        -- right. repeat split. exists (es ++ es'). rewrite emits_app.
           split; [|reflexivity]. constructor; auto. apply (Skips_pos rs (emits es s) s); auto.
    + intros [(pre & r' & post & es & b & H & H3 & H4 & H5)|(-> & -> & -> & es & H & ->)].
      * destruct pre as [|r0 pre]; injection H as -> ->.
        -- left. inversion H3; subst. rewrite emits_nil in H5. eauto.
        -- right. left. inversion H3 as [|? ? ? e1 e2 Hd Hs]; subst. exists e1. split; auto.
           apply IH. left. exists pre, r', post, e2, b. rewrite emits_app. repeat split; auto.
           apply (Skips_pos pre s); auto.
      * right. left. inversion H as [|? ? ? e1 e2 Hd Hs]; subst. exists e1. split; auto.
        apply IH. right. repeat split. exists e2. rewrite emits_app. split; auto.
        apply (Skips_pos rs s); auto.
Qed.

Lemma choice_runs c rs s o s' :
  Runs c (RChc rs) s o s' <->
  (exists pre r post es b, rs = pre ++ r :: post /\ Skips pre s es /\ Tries r s true b /\
     Finishes c r b (emits es s) o s') \/
  (existsb unconditional rs = false /\ o = OFalse /\ exists es, Skips rs s es /\
     s' = emit (EError TExhausted (pos s) (pos s)) (emits es s)).
Proof.
  rewrite Runs_shift. cbn [parse_step]. split.
  - intros [m H]. apply p_chc_ev in H.
    destruct H as [(pre & r & post & es & b & -> & H3 & H4 & H5)|(Hu & -> & -> & es & H)].
    + left. exists pre, r, post, es, b. repeat split; auto. now exists m.
    + right. eauto.
  - intros [(pre & r & post & es & b & -> & H3 & H4 & m & H5)|(Hu & -> & es & H)].
    + exists m. apply p_chc_ev. left. exists pre, r, post, es, b. auto.
    + exists 0. apply p_chc_ev. right. repeat split; auto. exists es. auto.
Qed.

(** An unconditional branch always matches. *)
Lemma uncond_tries r s b : unconditional r = true -> Tries r s false b -> False.
Proof.
  revert b. induction r using rule_rect; cbn [unconditional]; intros b1 Hu; try discriminate Hu;
    intros Ht; unfold Tries in Ht; apply ev_shift in Ht; cbn [step e_try try_step] in Ht;
    try (apply ev_const in Ht; discriminate).
  eapply IHr; eauto.
Qed.

Lemma Skips_cond rs s es : Skips rs s es -> existsb unconditional rs = false.
Proof.
  induction 1 as [|r rs s es es' (b & Hd & _) Hs IH]; auto. cbn. rewrite IH, orb_false_r.
  destruct (unconditional r) eqn:Hu; auto. exfalso. eapply uncond_tries; eauto.
Qed.

End Ev.
