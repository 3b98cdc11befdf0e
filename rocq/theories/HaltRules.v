(** Every rule combinator ends when the rules below it do. *)
From Verif Require Import Prelude RuleModel RuleSpec RuleDen RuleGood RuleMono RuleSem HaltBase.
Close Scope N_scope.

Section Rules.
Variable inp : list N.
Variable prods : nat -> production.
Notation eng := (eng inp prods).
Notation ev := (ev inp prods).
Notation ok := (ok inp).
Notation fw := (fw inp).
Notation EvG := (EvG inp prods).
Notation EvR := (EvR inp prods).
Notation TH := (TH inp prods).
Notation CH := (CH inp prods).
Notation MH := (MH inp prods).
Notation PH := (PH inp prods).
Notation FH := (FH inp prods).
Notation WH := (WH inp prods).
Notation deep := (deep inp).

Variable c : cx.
Variable d : nat.
Hypothesis HW : WH c.
Notation full := (full inp prods c d).

Lemma deep_ok s : deep c d s -> ok s.
Proof. now intros []. Qed.
Lemma deep_to s s' : deep c d s -> fw s s' -> deep c d s'.
Proof. intros. eapply deep_fw; eauto. Qed.
Hint Resolve deep_ok deep_to : core.

Lemma fw_k s s1 : deep c d s -> pos s1 = pos s -> depth s1 = depth s -> fw s s1.
Proof. intros [H _] H1 H2. unfold HaltBase.fw, RuleDen.ok in *. lia. Qed.
Hint Extern 2 (HaltBase.fw _ ?s ?s1) => (apply fw_k; [assumption|reflexivity|reflexivity]) : core.

Lemma f_parse r s b : full r -> deep c d s -> EvG b s (fun E k a => e_parse E c r k s a).
Proof. intros (_ & _ & H) Hs. now apply H. Qed.
Lemma f_finish r s b bs : full r -> deep c d s ->
  ev (fun E => e_try E r (vars s) (pos s)) (BR true bs) ->
  EvG b s (fun E k a => e_finish E c r bs k s a).
Proof. intros (_ & _ & H) Hs Ht. now apply H. Qed.
Lemma f_run r s : full r -> deep c d s -> EvR s (fun E => e_parse E c r final s []).
Proof. intros Hr Hs. apply (G_final inp prods s (fun E k a => e_parse E c r k s a)). now apply f_parse. Qed.
Lemma f_runf r s bs : full r -> deep c d s ->
  ev (fun E => e_try E r (vars s) (pos s)) (BR true bs) ->
  EvR s (fun E => e_finish E c r bs final s []).
Proof.
  intros Hr Hs Ht. apply (G_final inp prods s (fun E k a => e_finish E c r bs k s a)). now apply f_finish.
Qed.

Lemma mk_full r :
  (forall vs p, p <= length inp -> exists x, x <> BNoFuel /\ ev (fun E => try_step inp prods E r vs p) x) ->
  (forall b, exists es, ev (fun E => cancel_step inp prods E r b) (Some es)) ->
  (forall s b, deep c d s -> EvG b s (fun E k a => parse_step inp prods E c r k s a)) ->
  (forall s b bs n, deep c d s -> try_step inp prods (eng n) r (vars s) (pos s) = BR true bs ->
     EvG b s (fun E k a => finish_step inp prods E c r bs k s a)) ->
  full r.
Proof.
  intros HT HC HP HF. split; [|split; [|intros s Hs; split]].
  - intros vs p Hp. destruct (HT vs p Hp) as (x & Hx & He). exists x. split; auto. apply ev_shift. exact He.
  - intros b. destruct (HC b) as (es & He). exists es. apply ev_shift. exact He.
  - intros b. apply G_shift. apply (HP s b Hs).
  - intros b bs Ht. apply G_shift. apply ev_shift in Ht. apply ev_at in Ht. destruct Ht as [n Ht].
    apply (HF s b bs n Hs Ht).
Qed.

Lemma try_const x vs p r : x <> BNoFuel -> (forall E, try_step inp prods E r vs p = x) ->
  exists x, x <> BNoFuel /\ ev (fun E => try_step inp prods E r vs p) x.
Proof. intros Hx H. exists x. split; auto. exists 0. intros. apply H. Qed.

Lemma try_on {A} (X : engine -> A) x (J : A -> bres) : ev X x -> J x <> BNoFuel ->
  exists y, y <> BNoFuel /\ ev (fun E => J (X E)) y.
Proof. intros [N H] Hn. exists (J x). split; auto. exists N. intros n H1. now rewrite H. Qed.

Lemma try_same r r' : (forall E vs p, try_step inp prods E r vs p = e_try E r' vs p) -> TH r' ->
  forall vs p, p <= length inp -> exists x, x <> BNoFuel /\ ev (fun E => try_step inp prods E r vs p) x.
Proof.
  intros H HT vs p Hp. destruct (HT vs p Hp) as (x & Hx & N & He). exists x. split; auto.
  exists N. intros. rewrite H. auto.
Qed.
Lemma cancel_same r r' : (forall E b, cancel_step inp prods E r b = e_cancel E r' b) -> CH r' ->
  forall b, exists es, ev (fun E => cancel_step inp prods E r b) (Some es).
Proof. intros H HC b. destruct (HC b) as (es & N & He). exists es, N. intros. rewrite H. auto. Qed.
Lemma cancel_nil r : (forall E b, cancel_step inp prods E r b = Some []) ->
  forall b, exists es, ev (fun E => cancel_step inp prods E r b) (Some es).
Proof. intros H b. exists [], 0. intros. apply H. Qed.

Lemma try_tok r t f : MH t -> (forall E vs p, try_step inp prods E r vs p =
    match tmatch inp E t p with TR ok e => f vs p ok e | TNoFuel => BNoFuel | TCrash => BCrash end) ->
  (forall vs p ok e, f vs p ok e <> BNoFuel) ->
  forall vs p, p <= length inp -> exists x, x <> BNoFuel /\ ev (fun E => try_step inp prods E r vs p) x.
Proof.
  intros HM H Hf vs p Hp. destruct (HM p Hp) as (x & Hx & N & He).
  exists (match x with TR ok e => f vs p ok e | TNoFuel => BNoFuel | TCrash => BCrash end). split.
  - destruct x; [apply Hf|congruence|discriminate].
  - exists N. intros n Hn. rewrite H, He by exact Hn. reflexivity.
Qed.

Lemma tm_bounds n t p f e : p <= length inp -> tmatch inp (eng n) t p = TR f e -> p <= e <= length inp.
Proof. apply (tmatch_bounds inp prods _ (eng_good inp prods n)). Qed.

Lemma tries_of n r s bs : e_try (eng n) r (vars s) (pos s) = BR true bs ->
  ev (fun E => e_try E r (vars s) (pos s)) (BR true bs).
Proof. apply (try_Tries inp prods n r s true bs). Qed.

(** Rules that are no branch. *)
Lemma mk_plain r :
  (forall E vs p, try_step inp prods E r vs p = BCrash) ->
  (forall E b, cancel_step inp prods E r b = Some []) ->
  (forall s b, deep c d s -> EvG b s (fun E k a => parse_step inp prods E c r k s a)) ->
  full r.
Proof.
  intros HT HC HP. apply mk_full; auto.
  - intros vs p _. apply (try_const BCrash); auto. discriminate.
  - now apply cancel_nil.
  - intros s b bs n _ H. rewrite HT in H. discriminate.
Qed.

(** ** Tokens *)
Lemma G_tok_finish b nb kd e s (F : engine -> cont -> cont) vs : deep c d s -> pos s <= e <= length inp ->
  (forall E k, k_nows k = b -> k_nows (F E k) = nb) ->
  (forall s1, deep c d s1 -> EvG b s1 (fun E k a => k_fn (F E k) s1 a)) ->
  EvG b s (fun E k a => tok_finish E c kd e (F E k) s (a ++ vs)).
Proof.
  intros Hs He HF HK. unfold tok_finish.
  assert (Hf : fw s (setpos e (emit (EToken kd (pos s) e) s))) by (unfold HaltBase.fw; cbn; lia).
  eapply G_l; [exact Hf|].
  apply (G_args inp prods b _ (fun E k a => ws_then E c (F E k) (setpos e (emit (EToken kd (pos s) e) s)) a)).
  eapply G_ws_cont; eauto.
Qed.
Lemma G_tok_finish0 b kd e s vs : deep c d s -> pos s <= e <= length inp ->
  EvG b s (fun E k a => tok_finish E c kd e k s (a ++ vs)).
Proof.
  intros. apply (G_tok_finish b b kd e s (fun _ k => k)); auto. intros. apply G_k. auto.
Qed.
Lemma G_nil b s (F : engine -> cont -> list val -> res) :
  EvG b s (fun E k a => F E k (a ++ [])) -> EvG b s F.
Proof. apply G_ext. intros E k a _. cbn beta. now rewrite app_nil_r. Qed.

Lemma full_token r : token_rule r = true -> MH r -> full r.
Proof.
  intros Hr HM. destruct r; try discriminate Hr.
  all: apply mk_full.
  1,5: apply (try_tok _ _ (fun _ _ ok e => BR ok (BEnd e)) HM); [reflexivity|discriminate].
  1,4: now apply cancel_nil.
  1,3: intros s b Hs; cbn [parse_step]; apply (G_token inp prods b s _ (fun E k a _ s => ws_then E c k s a)); eauto;
       intros e s1 Hf He; apply G_ws; eauto using fw_ok.
  all: intros s b bs n Hs Ht; cbn [finish_step]; apply G_nil.
  - cbn [try_step] in Ht. destruct (tmatch inp (eng n) (RTok t) (pos s)) eqn:Hm; try discriminate.
    injection Ht as -> <-. apply G_tok_finish0; auto. cbn [b_end]. eapply tm_bounds; [|exact Hm].
    now apply deep_ok.
  - cbn [try_step] in Ht. destruct (tmatch inp (eng n) (RTokOf k r) (pos s)) eqn:Hm; try discriminate.
    injection Ht as -> <-. apply G_tok_finish0; auto. cbn [b_end]. eapply tm_bounds; [|exact Hm].
    now apply deep_ok.
Qed.

(** ** Sequences, branches, choices *)
Fixpoint seqn (rs : list rule) (b : bool) : bool :=
  match rs with [] => b | r :: rs => alias r && seqn rs b end.
Lemma seqn_eq E rs k : k_nows (seq_cont E c rs k) = seqn rs (k_nows k).
Proof. induction rs; cbn; auto. now rewrite IHrs. Qed.

Lemma G_seq b rs : Forall full rs -> forall s, deep c d s -> EvG b s (fun E k a => k_fn (seq_cont E c rs k) s a).
Proof.
  induction 1 as [|r rs Hr _ IH]; intros s Hs.
  - apply G_k. auto.
  - cbn [seq_cont k_fn].
    apply (G_bind inp prods b (seqn rs b) s (fun E k a => e_parse E c r k s a) (fun E => seq_cont E c rs)).
    + now apply f_parse.
    + intros E k <-. apply seqn_eq.
    + intros s1 H1. apply IH. eauto.
Qed.

Lemma full_seq rs : Forall full rs -> full (RSeq rs).
Proof. intros H. apply mk_plain; auto. intros s b Hs. cbn [parse_step]. unfold p_seq. now apply G_seq. Qed.

Lemma full_br r rs : full r -> Forall full rs -> full (RBr r rs).
Proof.
  intros Hr Hrs. apply mk_full.
  - apply (try_same (RBr r rs) r); [reflexivity|apply Hr].
  - apply (cancel_same (RBr r rs) r); [reflexivity|apply Hr].
  - intros s b Hs. cbn [parse_step]. unfold p_seq. apply G_seq; auto.
  - intros s b bs n Hs Ht. cbn [finish_step]. cbn [try_step] in Ht.
    apply (G_bind inp prods b (seqn rs b) s (fun E k a => e_finish E c r bs k s a) (fun E => seq_cont E c rs)).
    + apply f_finish; auto. eapply tries_of; eauto.
    + intros E k <-. apply seqn_eq.
    + intros s1 H1. apply G_seq; eauto.
Qed.

Lemma G_branch_or b nb r s (F : engine -> cont -> cont) (J : engine -> cont -> list val -> st -> res) :
  full r -> deep c d s ->
  (forall E k, k_nows k = b -> k_nows (F E k) = nb) ->
  (forall s1, fw s s1 -> EvG b s1 (fun E k a => k_fn (F E k) s1 a)) ->
  (forall es, EvG b s (fun E k a => J E k a (emits es s))) ->
  EvG b s (fun E k a => branch_or E c r (F E k) s a (J E k a)).
Proof.
  intros Hr Hs HF HK HJ. unfold branch_or.
  apply (G_try inp prods b s r (fun E bs k a => e_finish E c r bs (F E k) s a)
           (fun E bs k a => cancel_then E r bs s (J E k a))); auto.
  - apply Hr.
  - intros bs Ht. apply (G_bind inp prods b nb s (fun E k a => e_finish E c r bs k s a) F); auto.
    now apply f_finish.
  - intros bs _. apply G_cancel; auto. apply Hr.
Qed.

Lemma G_branch0 b r s (J : engine -> cont -> list val -> st -> res) :
  full r -> deep c d s ->
  (forall es, EvG b s (fun E k a => J E k a (emits es s))) ->
  EvG b s (fun E k a => branch_or E c r k s a (J E k a)).
Proof.
  intros Hr Hs HJ. apply (G_branch_or b b r s (fun _ k => k)); auto.
  intros s1 H1. apply G_k. apply fw_refl. eapply fw_ok; eauto.
Qed.

Lemma deep_emits s es : deep c d s -> deep c d (emits es s).
Proof. exact (fun H => H). Qed.
Hint Resolve deep_emits : core.

Lemma G_emits b s es F : deep c d s -> EvG b (emits es s) F -> EvG b s F.
Proof. intros Hs. apply G_l. auto. Qed.

Lemma G_p_chc b u rs : Forall full rs -> forall s, deep c d s -> EvG b s (fun E k a => p_chc E c u rs k s a).
Proof.
  induction 1 as [|r rs Hr _ IH]; intros s Hs; cbn [p_chc].
  - destruct u; [apply G_crash|]. apply G_false. auto.
  - apply (G_branch0 b r s (fun E k a s => p_chc E c u rs k s a)); auto.
    intros es. eapply G_emits; [exact Hs|]. apply IH. auto.
Qed.

Lemma t_chc_ev rs : Forall TH rs -> forall i vs p, p <= length inp ->
  exists x, x <> BNoFuel /\ ev (fun E => t_chc E rs i vs p) x.
Proof.
  induction 1 as [|r rs Hr _ IH]; intros i vs p Hp; cbn [t_chc].
  - exists (BR false (BChc i [])). split; [discriminate|]. now apply ev_const.
  - destruct (Hr vs p Hp) as (x & Hx & N & HN). destruct (IH (S i) vs p Hp) as (y & Hy & M & HM).
    exists (match x with
            | BR true b => BR true (BChc i [b])
            | BR false b => match y with BR ok (BChc j bs) => BR ok (BChc j (b :: bs)) | x => x end
            | x => x end). split.
    + destruct x as [[|] b| |]; try congruence. destruct y as [ok []| |]; congruence.
    + exists (N + M). intros n Hn. rewrite HN, HM by lia. destruct x as [[]| |], y as [? []| |]; reflexivity.
Qed.

Lemma c_chc_ev rs : Forall CH rs -> forall bs, exists es, ev (fun E => c_chc E rs bs) (Some es).
Proof.
  induction 1 as [|r rs Hr _ IH]; intros bs; cbn [c_chc].
  - exists []. now apply ev_const.
  - destruct (Hr (hd BNone bs)) as (a & N & HN). destruct (IH (tl bs)) as (b & M & HM).
    exists (a ++ b), (N + M). intros n Hn. rewrite HN, HM by lia. reflexivity.
Qed.

Lemma G_f_chc b rs : Forall full rs -> forall i bs r bi s, deep c d s ->
  nth_error rs i = Some r -> nth_error bs i = Some bi ->
  ev (fun E => e_try E r (vars s) (pos s)) (BR true bi) ->
  EvG b s (fun E k a => f_chc E c rs i bs k s a).
Proof.
  induction 1 as [|r0 rs Hr0 _ IH]; intros i bs r bi s Hs Hr Hb Ht.
  { destruct i; discriminate. }
  destruct i as [|i]; (destruct bs as [|b0 bs]; [discriminate|]); cbn in Hr, Hb; cbn [f_chc hd tl].
  - injection Hr as ->. injection Hb as ->. now apply f_finish.
  - apply (G_cancel inp prods b s r0 b0 (fun E k a s => f_chc E c rs i bs k s a)); [apply Hr0|].
    intros es. eapply G_emits; [exact Hs|]. eapply IH; eauto.
Qed.

Lemma full_chc rs : Forall full rs -> full (RChc rs).
Proof.
  intros H. apply mk_full.
  - apply t_chc_ev. eapply Forall_impl; [|exact H]. now intros r [].
  - intros b. apply c_chc_ev. eapply Forall_impl; [|exact H]. now intros r (_ & ? & _).
  - intros s b Hs. cbn [parse_step]. now apply G_p_chc.
  - intros s b bs n Hs Ht. cbn [try_step] in Ht.
    apply t_chc_inv in Ht. destruct Ht as (j & bl & r & bj & -> & H1 & H2 & H3).
    cbn [finish_step Nat.add]. eapply G_f_chc; eauto. eapply tries_of; eauto.
Qed.

Lemma full_alts bs : Forall full bs -> full (alts_of bs).
Proof.
  intros H. destruct bs as [|b [|b' bs]]; cbn [alts_of]; try now apply full_chc. now inversion H.
Qed.

Lemma full_if r : full r -> full (RIf r).
Proof.
  intros H. apply mk_plain; auto. intros s b Hs. cbn [parse_step].
  apply (G_branch0 b r s (fun _ k a s => k_fn k s a)); auto. intros. apply G_k. auto.
Qed.
Lemma full_opt r : full r -> full (ROpt r).
Proof.
  intros H. apply mk_plain; auto. intros s b Hs. cbn [parse_step].
  apply (G_branch0 b r s (fun _ k a s => k_fn k s (a ++ [VNull]))); auto. intros. apply G_kv. auto.
Qed.
Lemma full_optt t r : full t -> full r -> full (ROptT t r).
Proof.
  intros Ht Hr. apply mk_plain; auto. intros s b Hs. cbn [parse_step].
  apply (G_try inp prods b s t (fun E bs k a => e_finish E c t bs k s (a ++ [VNull]))
           (fun E bs k a => cancel_then E t bs s (fun s => e_parse E c r k s a))); auto; [apply Ht| |].
  - intros bs H. apply (G_args inp prods b s (fun E k a => e_finish E c t bs k s a)). now apply f_finish.
  - intros bs _. apply (G_cancel inp prods b s t bs (fun E k a s => e_parse E c r k s a)); [apply Ht|].
    intros es. eapply G_emits; [exact Hs|]. apply f_parse; auto.
Qed.

Lemma full_else : full RElse.
Proof.
  apply mk_full.
  - intros vs p _. apply (try_const (BR true BNone)); [discriminate|reflexivity].
  - now apply cancel_nil.
  - intros s b Hs. cbn [parse_step]. apply G_k. auto.
  - intros s b bs n Hs _. cbn [finish_step]. apply G_shift. cbn [step e_parse parse_step]. apply G_k. auto.
Qed.

Lemma G_stop b s o s1 : fw s s1 -> EvG b s (fun _ k a => Res (sto o a) s1 0).
Proof. intros H. exists (DStop o s1). split; auto. exists 0. intros n _ k a _. reflexivity. Qed.

Lemma full_break : full RBreak.
Proof.
  apply mk_full.
  - intros vs p _. apply (try_const (BR true BNone)); [discriminate|reflexivity].
  - now apply cancel_nil.
  - intros s b Hs. cbn [parse_step]. apply (G_stop b s SBreak). auto.
  - intros s b bs n Hs _. cbn [finish_step]. apply G_shift. cbn [step e_parse parse_step].
    apply (G_stop b s SBreak). auto.
Qed.

(** ** Errors *)
Definition RH (r : rule) : Prop := forall p, p <= length inp ->
  exists x, x <> TNoFuel /\ ev (fun E => run_token E r p) x.
Definition errH (r : option rule) : Prop := match r with None => True | Some r => RH r end.

Lemma G_err b t r s : errH r -> deep c d s -> EvG b s (fun E k a => p_err E t r s).
Proof.
  intros Hr Hs. unfold p_err. destruct r as [r|].
  - destruct (Hr (pos s) (deep_ok _ Hs)) as (x & Hx & He).
    apply (G_on inp prods b s (fun E => run_token E r (pos s)) x
             (fun E x k a => match x with TR _ e => Res OFalse (emit (EError t (pos s) e) s) 0
                             | TNoFuel => NoFuel | TCrash => Crash end) He).
    destruct x; [|congruence|apply G_crash]. apply G_false. auto.
  - apply G_false. auto.
Qed.

Lemma full_err t r : errH r -> full (RErr t r).
Proof.
  intros H. apply mk_full.
  - intros vs p _. apply (try_const (BR true BNone)); [discriminate|reflexivity].
  - now apply cancel_nil.
  - intros s b Hs. cbn [parse_step]. now apply G_err.
  - intros s b bs n Hs _. cbn [finish_step]. apply G_shift. cbn [step e_parse parse_step]. now apply G_err.
Qed.

Lemma full_must r t o : full r -> errH o -> full (RMust r t o).
Proof.
  intros Hr Ho. apply mk_full.
  - apply (try_same (RMust r t o) r); [reflexivity|apply Hr].
  - apply (cancel_same (RMust r t o) r); [reflexivity|apply Hr].
  - intros s b Hs. cbn [parse_step]. apply (G_branch0 b r s (fun E k a s => p_err E t o s)); auto.
    intros es. eapply G_emits; [exact Hs|]. apply G_err; auto.
  - intros s b bs n Hs Ht. cbn [finish_step]. apply f_finish; auto. eapply tries_of; eauto.
Qed.

(** ** Loops *)
Definition goes (r : rule) : Prop := forall s vs s1, deep c d s ->
  ev (fun E => e_parse E c r final s []) (Res (OTrue vs) s1 0) -> pos s < pos s1.
Definition goesf (r : rule) : Prop := forall s bs vs s1, deep c d s ->
  ev (fun E => e_try E r (vars s) (pos s)) (BR true bs) ->
  ev (fun E => e_finish E c r bs final s []) (Res (OTrue vs) s1 0) -> pos s < pos s1.
Definition bites (r : rule) : Prop := forall s bs o s1, deep c d s ->
  ev (fun E => e_try E r (vars s) (pos s)) (BR true bs) ->
  ev (fun E => e_finish E c r bs final s []) (Res o s1 0) -> pos s < pos s1.

Lemma G_loop r b : full r -> goes r -> forall m s, deep c d s -> length inp - pos s <= m ->
  EvG b s (fun E k a => e_parse E c (RLoop r) k s a).
Proof.
  intros Hr Hg. induction m as [m IH] using lt_wf_ind. intros s Hs Hm.
  apply G_shift. cbn [step e_parse parse_step].
  destruct (f_run r s Hr Hs) as (x & Hx & He).
  apply (G_on inp prods b s (fun E => e_parse E c r final s []) x
    (fun E x k a => match x with
      | Res (OTrue _) s _ => e_parse E c (RLoop r) k s a
      | Res OBreak s _ => k_fn k s a
      | Res OFalse s _ => Res OFalse s 0
      | Res (OItem _ _) _ _ => Crash
      | NoFuel => NoFuel
      | Crash => Crash
      end) He).
  destruct x as [[] s1 m1| |]; cbn [gr] in Hx; try apply G_crash; try tauto; destruct Hx as [Hx ->].
  - now apply G_false.
  - pose proof (Hg s vs s1 Hs He) as Hp. pose proof (deep_to _ _ Hs Hx) as H1.
    eapply G_l; [exact Hx|]. apply (IH (length inp - pos s1)); auto.
    destruct Hx as [? _]. lia.
  - apply G_k. exact Hx.
Qed.

Lemma full_loop r : full r -> goes r -> full (RLoop r).
Proof.
  intros Hr Hg. apply mk_plain; auto. intros s b Hs.
  destruct (G_loop r b Hr Hg _ s Hs (le_n _)) as (x & Hx & N & He).
  exists x. split; auto. exists N. intros n Hn. apply (He (S n)). lia.
Qed.

Lemma G_while r b : full r -> goesf r -> forall m s, deep c d s -> length inp - pos s <= m ->
  EvG b s (fun E k a => e_parse E c (RWhile r) k s a).
Proof.
  intros Hr Hg. induction m as [m IH] using lt_wf_ind. intros s Hs Hm.
  apply G_shift. cbn [step e_parse parse_step].
  apply (G_try inp prods b s r
    (fun E bs k a => delim (e_finish E c r bs final s []) (fun s _ => e_parse E c (RWhile r) k s a))
    (fun E bs k a => cancel_then E r bs s (fun s => k_fn k s a))); auto; [apply Hr| |].
  - intros bs Ht. apply (G_delim inp prods b s _ (fun E k a s _ => e_parse E c (RWhile r) k s a)).
    + now apply f_runf.
    + intros s1 vs Hx He. pose proof (Hg s bs vs s1 Hs Ht He) as Hp. pose proof (deep_to _ _ Hs Hx) as H1.
      apply (IH (length inp - pos s1)); auto. destruct Hx as [? _]. lia.
  - intros bs _. apply (G_cancel inp prods b s r bs (fun E k a s => k_fn k s a)); [apply Hr|].
    intros es. apply G_k. auto.
Qed.

Lemma full_while r : full r -> goesf r -> full (RWhile r).
Proof.
  intros Hr Hg. apply mk_plain; auto. intros s b Hs.
  destruct (G_while r b Hr Hg _ s Hs (le_n _)) as (x & Hx & N & He).
  exists x. split; auto. exists N. intros n Hn. apply (He (S n)). lia.
Qed.

(** ** Lists *)
Definition sepH (P : rule -> Prop) (sep : option (rule * sepk)) : Prop :=
  match sep with None => True | Some (r, _) => P r end.

Definition goesi (item : rule) : Prop := if is_branch prods item then goesf item else goes item.

Lemma rp_fw s k b e s1 : fw s s1 -> fw s (report_trailing k b e s1).
Proof. now destruct k. Qed.

Lemma R_emits s es F : deep c d s -> EvR (emits es s) F -> EvR s F.
Proof. intros Hs. apply R_l. auto. Qed.

Lemma R_lst_item item sep sb s acc : full item -> deep c d s ->
  (forall s1 acc, fw s s1 -> (goesi item -> pos s < pos s1) -> EvR s1 (fun E => e_lst E c item sep s1 acc)) ->
  EvR s (fun E => lst_item prods E c item sep sb s acc).
Proof.
  intros Hi Hs HL. unfold lst_item, goesi in *. destruct (is_branch prods item).
  - apply (R_try inp prods s item
      (fun E b => delim (e_finish E c item b final s []) (fun s v => e_lst E c item sep s (push v acc)))
      (fun E b => cancel_then E item b s (fun s' =>
          Res (OTrue [VSink acc])
              (match sep with Some (_, k) => report_trailing k sb (pos s) s' | None => s' end) 0)));
      auto; [apply Hi| |].
    + intros bs Ht. apply R_delim; [now apply f_runf|]. intros s1 vs Hf He. apply HL; auto.
      intros Hg. eapply Hg; eauto.
    + intros bs _. apply (R_cancel inp prods s item bs (fun E s' => Res (OTrue [VSink acc])
              (match sep with Some (_, k) => report_trailing k sb (pos s) s' | None => s' end) 0)); [apply Hi|].
      intros es. apply R_res. destruct sep as [[]|]; [apply rp_fw|]; auto.
  - apply R_delim; [now apply f_run|]. intros s1 vs Hf He. apply HL; auto.
    intros Hg. eapply Hg; eauto.
Qed.

Definition rounds (item : rule) (sep : option (rule * sepk)) : Prop :=
  goesi item \/ match sep with Some (sr, _) => goesf sr | None => False end.

Lemma R_lst item sep : full item -> sepH full sep -> rounds item sep ->
  forall m s acc, deep c d s -> length inp - pos s <= m -> EvR s (fun E => e_lst E c item sep s acc).
Proof.
  intros Hi Hsep Hr. induction m as [m IH] using lt_wf_ind. intros s acc Hs Hm.
  apply R_shift. cbn [step e_lst]. unfold lst_step. destruct sep as [[sr k]|]; cbn [sepH] in Hsep.
  - apply (R_try inp prods s sr
      (fun E b => delim (e_finish E c sr b final s []) (fun s' v => lst_item prods E c item (Some (sr, k)) (pos s) s' (push v acc)))
      (fun E b => cancel_then E sr b s (fun s' => Res (OTrue [VSink acc]) s' 0))); auto; [apply Hsep| |].
    + intros bs Ht. apply (R_delim inp prods s _ (fun E s' v => lst_item prods E c item (Some (sr, k)) (pos s) s' (push v acc)));
        [now apply f_runf|]. intros s1 vs Hf He.
      assert (H1 : deep c d s1) by eauto.
      apply R_lst_item; auto. intros s2 acc2 H2 Hg. apply (IH (length inp - pos s2)); auto; [|eauto].
      assert (pos s < pos s2).
      { destruct Hr as [Hr|Hr]; [specialize (Hg Hr); destruct Hf; lia|].
        specialize (Hr s bs vs s1 Hs Ht He). destruct H2; lia. }
      destruct H2. lia.
    + intros bs _. apply (R_cancel inp prods s sr bs (fun E s' => Res (OTrue [VSink acc]) s' 0)); [apply Hsep|].
      intros es. apply R_res. auto.
  - destruct Hr as [Hr|[]]. apply R_lst_item; auto. intros s2 acc2 H2 Hg.
    apply (IH (length inp - pos s2)); auto; [|eauto]. specialize (Hg Hr). destruct H2. lia.
Qed.

Lemma G_lst_then b item sep s v : full item -> sepH full sep -> rounds item sep -> deep c d s ->
  EvG b s (fun E k a => delim (e_lst E c item sep s (push v [])) (sink_finish k a)).
Proof.
  intros Hi Hsep Hr Hs. apply (G_delim inp prods b s _ (fun E k a => sink_finish k a)).
  - eapply R_lst; eauto.
  - intros s2 v2 H2 _. apply G_kv. apply fw_refl. eapply fw_ok; eauto.
Qed.

Lemma full_lst item sep : full item -> sepH full sep -> rounds item sep -> full (RLst item sep).
Proof.
  intros Hi Hsep Hr. apply mk_full.
  - apply (try_same (RLst item sep) item); [reflexivity|apply Hi].
  - apply (cancel_same (RLst item sep) item); [reflexivity|apply Hi].
  - intros s b Hs. cbn [parse_step].
    apply (G_delim inp prods b s _ (fun E k a s v => delim (e_lst E c item sep s (push v [])) (sink_finish k a))).
    + now apply f_run.
    + intros s1 vs Hf _. apply G_lst_then; eauto.
  - intros s b bs n Hs Ht. cbn [finish_step]. cbn [try_step] in Ht.
    apply (G_delim inp prods b s _ (fun E k a s v => delim (e_lst E c item sep s (push v [])) (sink_finish k a))).
    + apply f_runf; auto. eapply tries_of; eauto.
    + intros s1 vs Hf _. apply G_lst_then; eauto.
Qed.

End Rules.
