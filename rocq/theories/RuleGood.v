(** The main induction over the engine: every parser moves from one state to another in the
    sense of [Mv], reports an error when it fails, and runs its continuation at most once. *)
From Verif Require Import Prelude RuleModel RuleSpec RuleDen.
Close Scope N_scope.

Definition weakc (c : cx) : bool := match cx_ws c with Some w => weak w | None => false end.
Definition weaks (sep : option (rule * sepk)) : bool :=
  match sep with Some (r, _) => weak r | None => false end.

Section Good.
Variable inp : list N.
Variable prods : nat -> production.

Notation ok := (ok inp).
Notation Mv := (Mv inp).
Notation Fl := (Fl inp prods).
Notation T := (T inp).
Notation HasD := (HasD inp prods).
Notation dres := (dres inp prods).

Lemma Fl_ok w s s' : Fl w s s' -> ok s'.
Proof. intros H. exact (S_ok _ _ _ (Fl_S _ _ _ _ _ H)). Qed.

Record ge (E : engine) : Prop := {
  ge_parse : forall c r b s, ok s ->
    HasD (weak r || weakc c) b s (fun k a => e_parse E c r k s a);
  ge_finish : forall c r bs b s, ok s -> e_try E r (vars s) (pos s) = BR true bs ->
    HasD (weak r || weakc c) b s (fun k a => e_finish E c r bs k s a);
  ge_cancel : forall r bs es, e_cancel E r bs = Some es -> debug es;
  ge_ws : forall w p f e, p <= length inp -> e_wsloop E w p = TR f e -> p <= e <= length inp;
  ge_lst : forall c i sep s acc, ok s ->
    dres (weak i || weaks sep || weakc c) s (e_lst E c i sep s acc);
  ge_lstt : forall c t i sep lim ls sp s acc, ok s -> sp <= pos s ->
    match ls with
    | LSearch b => forall s0 p, b <= pos s -> p <= length inp ->
        Mv (emit (ERStart p) s0) (setpos b s) -> dres true s0 (e_lstt E c t i sep lim ls sp s acc)
    | LRecovery => dres true s (e_lstt E c t i sep lim ls sp s acc)
    | _ => dres (weak t || weak i || weaks sep || weakc c) s (e_lstt E c t i sep lim ls sp s acc)
    end;
  ge_reco : forall c lim alts b nb s0 s p, ok s -> b <= pos s -> p <= length inp ->
    Mv (emit (ERStart p) s0) (setpos b s) ->
    HasD true nb s0 (fun k a => e_reco E c lim alts b k s a);
  ge_comb : forall c dup alts n cnt h s acc, ok s ->
    dres (weak alts || weakc c) s (e_comb E c dup alts n cnt h s acc);
  ge_flags : forall c r t z s, ok s -> dres (weak r || weakc c) s (e_flags E c r t z s)
}.

Lemma ge_0 : ge eng0.
Proof.
  constructor; cbn; intros; try discriminate; try apply HD_no; auto. destruct ls; cbn; auto.
Qed.

Lemma HD_run w b s P k : HasD w b s P -> k_nows k = b ->
  (forall l s1 vs, T l s s1 -> dres w s1 (k_fn k s1 vs)) -> dres w s (P k []).
Proof.
  intros (d & Hd & Hg) Hk HK. rewrite Hd by exact Hk.
  destruct d as [[]|l s1 vs| |]; cbn in *; auto.
  specialize (HK l s1 vs Hg). destruct (k_fn k s1 vs) as [o s2 m| |].
  - rewrite posts_Res. destruct o; cbn in *; destruct HK; split; auto;
      first [eapply T_S_res; eassumption|eapply T_Fl_res; eassumption].
  - rewrite posts_NoFuel. exact I.
  - rewrite posts_Crash. exact I.
Qed.

Lemma ok_tok s k e : ok (setpos e (emit k s)) -> e <= length inp.
Proof. exact (fun H => H). Qed.

Lemma filter_rev {A} (f : A -> bool) l : filter f (rev l) = rev (filter f l).
Proof.
  induction l as [|x l IH]; cbn; auto.
  rewrite filter_app, IH. cbn. destruct (f x); cbn; auto. now rewrite app_nil_r.
Qed.

Lemma err_tile es p : tile p (filter is_err es) = Some p.
Proof. induction es as [|e es IH]; cbn; auto. destruct e; cbn; auto. Qed.

Lemma err_seg es p : segment p (filter is_err es) p.
Proof.
  induction es as [|e es IH]; cbn; [constructor|]. destruct e; cbn; auto.
  all: apply seg_other; cbn; auto.
Qed.

Lemma err_bal es : balanced (filter is_err es).
Proof.
  induction es as [|e es IH]; cbn; [apply bal_nil|]. destruct e; cbn; auto.
  all: apply bal_cons; auto.
Qed.

Lemma err_has es : existsb is_err (filter is_err es) = existsb is_err es.
Proof. induction es as [|e es IH]; cbn; auto. destruct e; cbn; auto. Qed.

Lemma Mv_ws s t k : ok s -> Mv (sub_st (pos s)) t ->
  Mv s (setpos (pos t) (emit (EToken k (pos s) (pos t)) (emits (rev (filter is_err (trace t))) s))).
Proof.
  intros Hs Ht. pose proof (S_pos _ _ _ Ht) as Hp. pose proof (S_ok _ _ _ Ht) as Hk.
  destruct Ht as (es & He & _ & _ & Hi & _ & _). unfold ext in He. cbn in He.
  rewrite app_nil_r in He.
  assert (Hf : rev (filter is_err (trace t)) = filter is_err es).
  { rewrite He, filter_rev, rev_involutive. reflexivity. }
  rewrite Hf. cbn [pos sub_st] in Hp.
  exists (filter is_err es ++ [EToken k (pos s) (pos t)]).
  repeat split.
  - unfold ext. cbn. now rewrite rev_app_distr.
  - rewrite (tile_app _ _ _ _ (err_tile es (pos s))). cbn. rewrite Nat.eqb_refl.
    destruct (Nat.leb_spec (pos s) (pos t)); [reflexivity|lia].
  - eapply seg_app; [apply err_seg|]. constructor; [exact Hp|constructor].
  - apply bal_app; [apply err_bal|]. apply bal_cons; [reflexivity|apply bal_nil].
  - apply Forall_app. split.
    + apply Forall_forall. intros e He'. apply filter_In in He'. rewrite Forall_forall in Hi.
      apply Hi. tauto.
    + repeat constructor; auto.
  - exact Hk.
  - apply as_refl.
Qed.

Lemma Fl_ws w s t k : ok s -> Fl w (sub_st (pos s)) t ->
  Fl w s (setpos (pos t) (emit (EToken k (pos s) (pos t)) (emits (rev (filter is_err (trace t))) s))).
Proof.
  intros Hs [HS HE]. split; [now apply Mv_ws|]. intros Hg Hw.
  destruct (HE Hg Hw) as (es & He & Hr). unfold ext in He. cbn in He. rewrite app_nil_r in He.
  assert (Hf : rev (filter is_err (trace t)) = filter is_err es).
  { rewrite He, filter_rev, rev_involutive. reflexivity. }
  rewrite Hf.
  exists (filter is_err es ++ [EToken k (pos s) (pos t)]). split.
  - unfold ext. cbn. now rewrite rev_app_distr.
  - unfold has_error in *. now rewrite existsb_app, err_has, Hr.
Qed.

Section Step.
Variable E : engine.
Hypothesis HE : ge E.

Ltac wk := intros; cbn [weak] in *; unfold weaks, weakc in *; rewrite ?orb_false_iff in *; tauto.

Lemma parse_d c r b s w : ok s -> (w = false -> weak r = false /\ weakc c = false) ->
  HasD w b s (fun k a => e_parse E c r k s a).
Proof.
  intros Hs Hw. eapply HD_mono; [|apply (ge_parse E HE c r b s Hs)].
  intros H. apply Hw in H. destruct H as [-> ->]. reflexivity.
Qed.

Lemma finish_d c r bs b s w : ok s -> e_try E r (vars s) (pos s) = BR true bs ->
  (w = false -> weak r = false /\ weakc c = false) ->
  HasD w b s (fun k a => e_finish E c r bs k s a).
Proof.
  intros Hs Ht Hw. eapply HD_mono; [|apply (ge_finish E HE c r bs b s Hs Ht)].
  intros H. apply Hw in H. destruct H as [-> ->]. reflexivity.
Qed.

Lemma run_d c r s w : ok s -> (w = false -> weak r = false /\ weakc c = false) ->
  dres w s (e_parse E c r final s []).
Proof. intros. apply (HD_final inp prods w s (fun k a => e_parse E c r k s a)). now apply parse_d. Qed.

Lemma runf_d c r bs s w : ok s -> e_try E r (vars s) (pos s) = BR true bs ->
  (w = false -> weak r = false /\ weakc c = false) ->
  dres w s (e_finish E c r bs final s []).
Proof. intros. apply (HD_final inp prods w s (fun k a => e_finish E c r bs k s a)). now apply finish_d. Qed.

Lemma run_token_bounds r p f e : p <= length inp -> run_token E r p = TR f e -> p <= e <= length inp.
Proof.
  intros Hp. unfold run_token.
  pose proof (run_d sub_cx r (sub_st p) true Hp ltac:(discriminate)) as H.
  destruct (e_parse E sub_cx r final (sub_st p) []) as [[] s1 m| |]; cbn in H; try discriminate.
  - intros [= _ <-]. destruct H as [[H _] _].
    split; [apply (S_pos _ _ _ H)|apply (S_ok _ _ _ H)].
  - intros [= _ <-]. destruct H as [H _].
    split; [apply (S_pos _ _ _ H)|apply (S_ok _ _ _ H)].
Qed.

Lemma tmatch_bounds r p f e : p <= length inp -> tmatch inp E r p = TR f e -> p <= e <= length inp.
Proof.
  intros Hp. destruct r; cbn [tmatch]; try (apply run_token_bounds; exact Hp).
  intros [= _ <-]. now apply tk_try_ok.
Qed.

Lemma wsloop_bounds w p f e : p <= length inp -> wsloop_step inp E w p = TR f e -> p <= e <= length inp.
Proof.
  intros Hp. unfold wsloop_step. destruct (tmatch inp E w p) as [[|] e1| |] eqn:Ht; try discriminate.
  - apply tmatch_bounds in Ht; [|exact Hp]. intros H.
    apply (ge_ws E HE) in H; [|lia]. lia.
  - intros [= _ <-]. lia.
Qed.

Lemma terror_fl w r s e k : ok s -> pos s <= e -> e <= length inp ->
  Fl w s (setpos e (emit (terror inp r (pos s) e) (emit (EToken k (pos s) e) s))).
Proof.
  intros Hs H1 H2.
  pose proof (S_token inp s k e Hs H1 H2) as Hm.
  eapply Fl_l; [exact Hm|].
  set (s1 := setpos e (emit (EToken k (pos s) e) s)).
  change (setpos e (emit (terror inp r (pos s) e) (emit (EToken k (pos s) e) s)))
    with (emit (terror inp r (pos s) e) s1).
  assert (Hterr : exists t b e', terror inp r (pos s) e = EError t b e' /\ b <= e' /\ e' <= length inp).
  { destruct r; cbn [terror]; try (do 3 eexists; split; [reflexivity|lia]).
    pose proof (tk_err_ok t inp (pos s) Hs) as Ht. destruct (tk_err t inp (pos s)) as [[t0 b] e'].
    do 3 eexists. split; [reflexivity|lia]. }
  destruct Hterr as (t & b & e' & -> & ? & ?).
  apply Fl_error; auto.
Qed.

Lemma HD_token_parse w b r s (J : cont -> list val -> nat -> st -> res) : ok s ->
  (forall e s1, tmatch inp E r (pos s) = TR true e -> s1 = setpos e (emit (EToken (tkind_of r) (pos s) e) s) ->
     Mv s s1 -> HasD w b s1 (fun k a => J k a e s1)) ->
  HasD w b s (fun k a => token_parse inp E r s (J k a)).
Proof.
  intros Hs HJ. unfold token_parse. destruct (tmatch inp E r (pos s)) as [[|] e| |] eqn:Ht.
  - pose proof (tmatch_bounds _ _ _ _ Hs Ht) as Hb.
    assert (Hm := S_token inp s (tkind_of r) e Hs (proj1 Hb) (proj2 Hb)).
    eapply HD_S; [exact Hm|]. apply HJ; auto.
  - pose proof (tmatch_bounds _ _ _ _ Hs Ht) as Hb. apply HD_false. apply terror_fl; tauto.
  - apply HD_no.
  - apply HD_crash.
Qed.

Lemma HD_skip_ws w b wr s (J : cont -> list val -> st -> res) : ok s ->
  (w = false -> weak wr = false) ->
  (forall s1, Mv s s1 -> HasD w b s1 (fun k a => J k a s1)) ->
  HasD w b s (fun k a => skip_ws E wr s (J k a)).
Proof.
  intros Hs Hw HJ. unfold skip_ws.
  assert (Hw' : w = false -> weak (strip_ws wr) = false).
  { intros H. apply Hw in H. destruct wr; cbn [strip_ws]; auto. }
  destruct (token_rule (strip_ws wr)).
  - destruct (e_wsloop E (strip_ws wr) (pos s)) as [f e| |] eqn:Hl;
      [|apply HD_no|apply HD_crash].
    apply (ge_ws E HE) in Hl; [|exact Hs].
    assert (Hm := S_token inp s KWhitespace e Hs (proj1 Hl) (proj2 Hl)).
    eapply HD_S; [exact Hm|]. now apply HJ.
  - assert (Hr : dres w (sub_st (pos s))
       (e_parse E sub_cx (RLoop (chc_or (strip_ws wr) RBreak)) final (sub_st (pos s)) [])).
    { apply run_d; [exact Hs|]. intros H. split; [|reflexivity]. apply Hw' in H.
      cbn [weak]. destruct (strip_ws wr); cbn [chc_or weak existsb] in *; rewrite ?orb_false_r; auto.
      now rewrite existsb_app, H. }
    destruct (e_parse E sub_cx _ final (sub_st (pos s)) []) as [[] t m| |]; cbn in Hr;
      try apply HD_crash; try apply HD_no.
    + destruct Hr as [Hr _]. apply HD_false. now apply Fl_ws.
    + destruct Hr as [Hr _]. eapply HD_S; [apply (Mv_ws s t KWhitespace Hs Hr)|].
      apply HJ. now apply Mv_ws.
Qed.

Lemma HD_ws_then w b c s : ok s -> (w = false -> weakc c = false) ->
  HasD w b s (fun k a => ws_then E c k s a).
Proof.
  intros Hs Hw. unfold ws_then, weakc in *. destruct (cx_ws c) as [wr|].
  - eapply HD_ext with (K' := fun k a => if b || negb (wsf s) then k_fn k s a
                                         else skip_ws E wr s (fun s => k_fn k s a)).
    { intros k a ->. reflexivity. }
    destruct (b || negb (wsf s)).
    + apply HD_k. now apply S_refl.
    + apply (HD_skip_ws w b wr s (fun k a s => k_fn k s a)); auto.
      intros s1 H1. apply HD_k. apply S_refl. eapply S_ok; eauto.
  - apply HD_k. now apply S_refl.
Qed.

(** ws_then with a continuation built from the actual one. *)
Lemma HD_ws_cont w b c s vs (F : cont -> cont) nb : ok s -> (w = false -> weakc c = false) ->
  (forall k, k_nows k = b -> k_nows (F k) = nb) ->
  (forall s1, ok s1 -> HasD w b s1 (fun k a => k_fn (F k) s1 a)) ->
  HasD w b s (fun k a => ws_then E c (F k) s (a ++ vs)).
Proof.
  intros Hs Hw HF HK.
  apply (HD_args inp prods w b s (fun k a => ws_then E c (F k) s a) vs).
  apply (HD_bind inp prods w b nb s (fun k a => ws_then E c k s a) F).
  - now apply HD_ws_then.
  - exact HF.
  - intros l s1 HT. apply HK. eapply T_ok; eauto.
Qed.

Lemma HD_tok_finish w b c kd e s vs (F : cont -> cont) nb : ok s -> pos s <= e -> e <= length inp ->
  (w = false -> weakc c = false) ->
  (forall k, k_nows k = b -> k_nows (F k) = nb) ->
  (forall s1, ok s1 -> HasD w b s1 (fun k a => k_fn (F k) s1 a)) ->
  HasD w b s (fun k a => tok_finish E c kd e (F k) s (a ++ vs)).
Proof.
  intros Hs H1 H2 Hw HF HK. unfold tok_finish.
  eapply HD_S; [apply (S_token inp s kd e Hs H1 H2)|].
  apply HD_ws_cont with (nb := nb); auto.
Qed.

Lemma HD_cancel_then w b r bs s (J : cont -> list val -> st -> res) : ok s ->
  (forall es, debug es -> HasD w b (emits es s) (fun k a => J k a (emits es s))) ->
  HasD w b s (fun k a => cancel_then E r bs s (J k a)).
Proof.
  intros Hs HJ. unfold cancel_then. destruct (e_cancel E r bs) as [es|] eqn:Hc; [|apply HD_no].
  apply (ge_cancel E HE) in Hc. eapply HD_S; [apply (S_debug inp s es Hs Hc)|]. now apply HJ.
Qed.

Lemma dres_cancel_then w r bs s (J : st -> res) : ok s ->
  (forall es, debug es -> dres w (emits es s) (J (emits es s))) ->
  dres w s (cancel_then E r bs s J).
Proof.
  intros Hs HJ. unfold cancel_then. destruct (e_cancel E r bs) as [es|] eqn:Hc; [|exact I].
  apply (ge_cancel E HE) in Hc. eapply dres_l; [apply (S_debug inp s es Hs Hc)|]. now apply HJ.
Qed.

Lemma HD_branch_or w b nb c r s (F : cont -> cont) (J : cont -> list val -> st -> res) : ok s ->
  (w = false -> weak r = false /\ weakc c = false) ->
  (forall k, k_nows k = b -> k_nows (F k) = nb) ->
  (forall s1, ok s1 -> HasD w b s1 (fun k a => k_fn (F k) s1 a)) ->
  (forall es, debug es -> HasD w b (emits es s) (fun k a => J k a (emits es s))) ->
  HasD w b s (fun k a => branch_or E c r (F k) s a (J k a)).
Proof.
  intros Hs Hw HF HK HJ. unfold branch_or.
  destruct (e_try E r (vars s) (pos s)) as [[|] bs| |] eqn:Ht; try apply HD_no; try apply HD_crash.
  - apply (HD_bind inp prods w b nb s (fun k a => e_finish E c r bs k s a) F); auto.
    + now apply finish_d.
    + intros l s1 HT. apply HK. eapply T_ok; eauto.
  - apply HD_cancel_then; auto.
Qed.

Lemma ok_emits es s : ok s -> ok (emits es s).
Proof. exact (fun H => H). Qed.
Lemma ok_emit es s : ok s -> ok (emit es s).
Proof. exact (fun H => H). Qed.

Lemma HD_id w b s : ok s -> HasD w b s (fun k a => k_fn k s a).
Proof. intros. apply HD_k. now apply S_refl. Qed.

(** *** Sequence *)
Fixpoint seq_nows (rs : list rule) (b : bool) : bool :=
  match rs with [] => b | r :: rs => alias r && seq_nows rs b end.

Lemma seq_nows_eq c rs k : k_nows (seq_cont E c rs k) = seq_nows rs (k_nows k).
Proof. induction rs; cbn; auto. now rewrite IHrs. Qed.

Lemma HD_seq w b c rs : (w = false -> existsb weak rs = false /\ weakc c = false) ->
  forall s, ok s -> HasD w b s (fun k a => k_fn (seq_cont E c rs k) s a).
Proof.
  induction rs as [|r rs IH]; intros Hw s Hs.
  - now apply HD_id.
  - cbn [seq_cont k_fn].
    apply (HD_bind inp prods w b (seq_nows rs b) s (fun k a => e_parse E c r k s a) (seq_cont E c rs)).
    + apply parse_d; auto. intros H. apply Hw in H. cbn in H. rewrite orb_false_iff in H. tauto.
    + intros k <-. apply seq_nows_eq.
    + intros l s1 HT. apply IH.
      * intros H. apply Hw in H. cbn in H. rewrite orb_false_iff in H. tauto.
      * eapply T_ok; eauto.
Qed.

(** *** Choice *)
Lemma HD_p_chc w b c u rs : (w = false -> existsb weak rs = false /\ weakc c = false) ->
  forall s, ok s -> HasD w b s (fun k a => p_chc E c u rs k s a).
Proof.
  induction rs as [|r rs IH]; intros Hw s Hs; cbn [p_chc].
  - destruct u; [apply HD_crash|]. apply HD_false. apply Fl_error; auto.
  - apply HD_branch_or with (nb := b) (F := fun k => k) (J := fun k a s => p_chc E c u rs k s a); auto.
    + intros H. apply Hw in H. cbn in H. rewrite orb_false_iff in H. tauto.
    + intros. now apply HD_id.
    + intros es _. apply IH; auto.
      intros H. apply Hw in H. cbn in H. rewrite orb_false_iff in H. tauto.
Qed.

Lemma t_chc_inv rs : forall i vs p b, t_chc E rs i vs p = BR true b ->
  exists j bs r bj, b = BChc (i + j) bs /\ nth_error rs j = Some r /\ nth_error bs j = Some bj /\
                 e_try E r vs p = BR true bj.
Proof.
  induction rs as [|r rs IH]; intros i vs p b; cbn [t_chc]; [discriminate|].
  destruct (e_try E r vs p) as [[|] b0| |] eqn:Ht; try discriminate.
  - intros [= <-]. exists 0, [b0], r, b0. rewrite Nat.add_0_r. auto.
  - destruct (t_chc E rs (S i) vs p) as [[|] b1| |] eqn:Ht2; try discriminate;
      try (destruct b1; discriminate).
    apply IH in Ht2. destruct Ht2 as (j & bs & r' & bj & -> & H1 & H2 & H3).
    intros [= <-]. exists (S j), (b0 :: bs), r', bj. rewrite Nat.add_succ_r. auto.
Qed.

Lemma HD_f_chc w b c rs : (w = false -> existsb weak rs = false /\ weakc c = false) ->
  forall i bs r bi s, ok s -> nth_error rs i = Some r -> nth_error bs i = Some bi ->
  e_try E r (vars s) (pos s) = BR true bi ->
  HasD w b s (fun k a => f_chc E c rs i bs k s a).
Proof.
  induction rs as [|r0 rs IH]; intros Hw i bs r bi s Hs Hr Hb Ht.
  { destruct i; discriminate. }
  assert (Hw1 : w = false -> weak r0 = false /\ existsb weak rs = false /\ weakc c = false).
  { intros H. apply Hw in H. cbn in H. rewrite orb_false_iff in H. tauto. }
  destruct i as [|i]; cbn [f_chc].
  - cbn in Hr. injection Hr as ->. destruct bs as [|b0 bs]; [discriminate|]. cbn in Hb.
    injection Hb as ->. cbn [hd]. apply finish_d; auto. tauto.
  - destruct bs as [|b0 bs]; [discriminate|]. cbn in Hr, Hb. cbn [hd tl].
    apply HD_cancel_then; auto. intros es Hes.
    eapply IH; eauto. tauto.
Qed.

Lemma c_chc_debug rs : forall bs es, c_chc E rs bs = Some es -> debug es.
Proof.
  induction rs as [|r rs IH]; intros bs es; cbn [c_chc].
  - intros [= <-]. constructor.
  - destruct (e_cancel E r (hd BNone bs)) as [a|] eqn:Ha; [|discriminate].
    destruct (c_chc E rs (tl bs)) as [b|] eqn:Hb; [|discriminate].
    intros [= <-]. apply debug_app; [eapply ge_cancel; eauto|eauto].
Qed.

(** *** Errors *)
Lemma HD_err w b t r s : ok s -> HasD w b s (fun k a => p_err E t r s).
Proof.
  intros Hs. unfold p_err. destruct r as [r|].
  - destruct (run_token E r (pos s)) as [f e| |] eqn:Hr; [|apply HD_no|apply HD_crash].
    apply run_token_bounds in Hr; [|exact Hs]. apply HD_false. apply Fl_error; tauto.
  - apply HD_false. apply Fl_error; auto.
Qed.

(** *** List *)
Lemma lst_item_d c i sep sb s acc : ok s -> sb <= pos s ->
  dres (weak i || weaks sep || weakc c) s (lst_item prods E c i sep sb s acc).
Proof.
  intros Hs Hsb. unfold lst_item. destruct (is_branch prods i).
  - destruct (e_try E i (vars s) (pos s)) as [[|] b| |] eqn:Ht; try exact I.
    + apply dres_delim.
      * apply runf_d; auto; wk.
      * intros s1 vs H1. apply (ge_lst E HE). eapply S_ok; eauto.
    + apply dres_cancel_then; auto. intros es Hd. cbn. split; auto.
      destruct sep as [[sr k]|]; [|now apply S_refl].
      destruct k; cbn; try now apply S_refl. apply S_error; auto.
  - apply dres_delim.
    + apply run_d; auto; wk.
    + intros s1 vs H1. apply (ge_lst E HE). eapply S_ok; eauto.
Qed.

Lemma lst_step_d c i sep s acc : ok s ->
  dres (weak i || weaks sep || weakc c) s (lst_step prods E c i sep s acc).
Proof.
  intros Hs. unfold lst_step. destruct sep as [[sr k]|].
  - destruct (e_try E sr (vars s) (pos s)) as [[|] b| |] eqn:Ht; try exact I.
    + apply dres_delim.
      * apply runf_d; auto; wk.
      * intros s1 vs H1. apply lst_item_d; [eapply S_ok; eauto|]. apply (S_pos _ _ _ H1).
    + apply dres_cancel_then; auto. intros es Hd. cbn. split; auto. now apply S_refl.
  - now apply lst_item_d.
Qed.

(** *** List with terminator *)
Lemma Mv_search b s0 s p : ok s -> b <= pos s -> p <= length inp ->
  Mv (emit (ERStart p) s0) (setpos b s) -> Mv s0 (lstt_recovered b s).
Proof.
  intros Hs Hb Hp Hm. unfold lstt_recovered.
  apply (S_frame inp (ERStart p)); cbn; auto using opens_R, framed_R.
  eapply S_trans; [exact Hm|].
  pose proof (S_token inp (setpos b s) KError (pos s)) as Ht. cbn [pos setpos] in Ht.
  destruct s; apply Ht; cbn in *; auto. unfold RuleDen.ok in *. cbn in *. lia.
Qed.

Lemma Mv_searchc b s0 s p : ok s -> b <= pos s -> p <= length inp ->
  Mv (emit (ERStart p) s0) (setpos b s) -> Mv s0 (emit (ERCancel (pos s)) (emit (EToken KError b (pos s)) s)).
Proof.
  intros Hs Hb Hp Hm. 
  apply (S_frame inp (ERStart p)); cbn; auto using opens_RC, framed_RC.
  eapply S_trans; [exact Hm|].
  pose proof (S_token inp (setpos b s) KError (pos s)) as Ht. cbn [pos setpos] in Ht.
  destruct s; apply Ht; cbn in *; auto. unfold RuleDen.ok in *. cbn in *. lia.
Qed.

Lemma Mv_search_debug b s0 s p es : debug es -> b <= length inp ->
  Mv (emit (ERStart p) s0) (setpos b s) -> Mv (emit (ERStart p) s0) (setpos b (emits es s)).
Proof.
  intros Hd Hb Hm. eapply S_trans; [exact Hm|].
  apply (S_debug inp (setpos b s) es); auto.
Qed.

Lemma eof_lt p : eof inp p = false -> p < length inp.
Proof. unfold eof. intros H. apply Nat.leb_gt in H. exact H. Qed.

Lemma lstt_limit_d c t i sep lim b sp s acc s0 p : ok s -> sp <= pos s -> b <= pos s ->
  p <= length inp -> Mv (emit (ERStart p) s0) (setpos b s) ->
  dres true s0 (lstt_limit inp E c t i sep lim b sp s acc).
Proof.
  intros Hs Hsp Hb Hp Hm. unfold lstt_limit.
  destruct (e_try E t (vars s) (pos s)) as [[|] tb| |] eqn:Ht; try exact I.
  - cbn. split; auto. exact (Mv_search b s0 s p Hs Hb Hp Hm).
  - unfold cancel_then. destruct (e_cancel E t tb) as [es|] eqn:Hc; [|exact I].
    apply (ge_cancel E HE) in Hc.
    assert (Hb' : b <= length inp) by (unfold RuleDen.ok in Hs; lia).
    assert (Hm' := Mv_search_debug b s0 s p es Hc Hb' Hm).
    destruct (fst (tk_try lim inp (pos (emits es s))) || eof inp (pos (emits es s))) eqn:Hl.
    + cbn. split; auto. apply Fl_true. exact (Mv_searchc b s0 (emits es s) p Hs Hb Hp Hm').
    + apply orb_false_iff in Hl. destruct Hl as [_ Hl]. apply eof_lt in Hl.
      pose proof (ge_lstt E HE c t i sep lim (LSearch b) sp (setpos (S (pos (emits es s))) (emits es s)) acc) as H.
      cbn [pos setpos emits] in *. 
      refine (H _ _ s0 p _ Hp _); try lia.
      * unfold RuleDen.ok. cbn. lia.
      * exact Hm'.
Qed.

Lemma fl_then w s s1 X : Fl w s s1 -> dres true s1 X -> dres w s X.
Proof.
  intros HF. destruct X as [[] s2 m| |]; cbn; auto; intros [H1 H2]; split; auto.
  - eapply Fl_r; eauto. apply H1.
  - eapply S_trans; [apply HF|auto].
  - eapply S_trans; [apply HF|auto].
  - eapply S_trans; [apply HF|auto].
Qed.

Lemma mv_then s s1 X : Mv s s1 -> dres true s1 X -> dres true s X.
Proof. intros. eapply fl_then; eauto. now apply Fl_true. Qed.

Lemma lstt_step_d c t i sep lim ls sp s acc : ok s -> sp <= pos s ->
    match ls with
    | LSearch b => forall s0 p, b <= pos s -> p <= length inp ->
        Mv (emit (ERStart p) s0) (setpos b s) ->
        dres true s0 (lstt_step inp prods E c t i sep lim ls sp s acc)
    | LRecovery => dres true s (lstt_step inp prods E c t i sep lim ls sp s acc)
    | _ => dres (weak t || weak i || weaks sep || weakc c) s
             (lstt_step inp prods E c t i sep lim ls sp s acc)
    end.
Proof.
  intros Hs Hsp.
  pose proof (fun ls sp s acc => ge_lstt E HE c t i sep lim ls sp s acc) as G.
  set (w := weak t || weak i || weaks sep || weakc c) in *.
  assert (Gt := fun sp s acc => G LTerm sp s acc).
  assert (Gs := fun sp s acc => G LSep sp s acc).
  assert (Gr := fun sp s acc => G LTrail sp s acc).
  assert (Gi := fun sp s acc => G LItem sp s acc).
  assert (Gv := fun sp s acc => G LRecovery sp s acc).
  assert (Gb := fun b sp s acc => G (LSearch b) sp s acc). clear G. cbv beta iota in *.
  assert (Gm : forall r s1, dres w s1 r -> dres true s1 r).
  { intros r s1. apply dres_mono. discriminate. }
  destruct ls as [| | | | |b]; cbn [lstt_step].
  - (* terminator *)
    destruct (e_try E t (vars s) (pos s)) as [[|] tb| |]; try exact I.
    + cbn. split; auto. now apply S_refl.
    + apply dres_cancel_then; auto.
  - (* separator *)
    destruct sep as [[sr k]|]; [|auto].
    eapply dres_orelse with (w := w).
    + apply run_d; auto. unfold w. wk.
    + intros s1 vs H1. apply Gr; [eapply S_ok; eauto|]. apply (S_pos _ _ _ H1).
    + intros s1 H1.
      assert (Hk1 : ok s1) by (exact (Fl_ok _ _ _ H1)).
      assert (Hp1 : pos s <= pos s1) by (eapply S_pos; apply H1).
      eapply fl_then; [exact H1|].
      destruct (pos s =? pos s1); [destruct (is_branch prods i)|]; auto.
      destruct (e_try E i (vars s1) (pos s1)) as [[|] ib| |] eqn:Hi; try exact I.
      * eapply dres_orelse with (w := w).
        -- apply runf_d; auto. unfold w. wk.
        -- intros s2 vs H2. apply Gm, Gt; [eapply S_ok; eauto|].
           pose proof (S_pos _ _ _ H2). lia.
        -- intros s2 H2. eapply mv_then; [apply H2|]. apply dres_cancel_then; [exact (Fl_ok _ _ _ H2)|].
           intros es Hes. apply Gv; [exact (Fl_ok _ _ _ H2)|]. cbn. pose proof (S_pos _ _ _ (Fl_S _ _ _ _ _ H2)). lia.
      * apply dres_cancel_then; auto.
  - (* trailing separator check *)
    destruct sep as [[sr k]|]; [|exact I].
    destruct (e_try E t (vars s) (pos s)) as [[|] tb| |]; try exact I; auto.
    cbn. split; auto. destruct k; cbn; try now apply S_refl. apply S_error; auto.
  - (* item *)
    eapply dres_orelse with (w := w).
    + apply run_d; auto. unfold w. wk.
    + intros s1 vs H1. apply Gt; [eapply S_ok; eauto|]. pose proof (S_pos _ _ _ H1). lia.
    + intros s1 H1. eapply fl_then; [exact H1|]. apply Gv; [exact (Fl_ok _ _ _ H1)|].
      pose proof (S_pos _ _ _ (Fl_S _ _ _ _ _ H1)). lia.
  - (* recovery *)
    apply Gb with (p := pos s); auto.
    destruct s; apply S_refl; exact Hs.
  - (* searching *)
    intros s0 p Hb Hp Hm.
    assert (Hb' : b <= length inp) by (unfold RuleDen.ok in Hs; lia).
    destruct sep as [[sr k]|].
    + destruct (e_try E sr (vars s) (pos s)) as [[|] sb| |] eqn:Ht; try exact I.
      * eapply mv_then; [exact (Mv_search b s0 s p Hs Hb Hp Hm)|].
        eapply dres_orelse with (w := w).
        -- apply runf_d; auto. unfold w. wk.
        -- intros s1 vs H1. apply Gm, Gr; [eapply S_ok; eauto|]. apply (S_pos _ _ _ H1).
        -- intros s1 H1. eapply mv_then; [apply H1|]. apply Gv; [exact (Fl_ok _ _ _ H1)|].
           apply (S_pos _ _ _ (Fl_S _ _ _ _ _ H1)).
      * unfold cancel_then. destruct (e_cancel E sr sb) as [es|] eqn:Hc; [|exact I].
        apply (ge_cancel E HE) in Hc.
        apply (lstt_limit_d c t i _ lim b _ (emits es s) acc s0 p); auto. now apply Mv_search_debug.
    + destruct (is_branch prods i).
      * destruct (e_try E i (vars s) (pos s)) as [[|] ib| |] eqn:Ht; try exact I.
        -- eapply mv_then; [exact (Mv_search b s0 s p Hs Hb Hp Hm)|].
           eapply dres_orelse with (w := w).
           ++ apply runf_d; auto. unfold w. wk.
           ++ intros s1 vs H1. apply Gm, Gt; [eapply S_ok; eauto|].
              pose proof (S_pos _ _ _ H1) as Hq. cbn in Hq. lia.
           ++ intros s1 H1. eapply mv_then; [apply H1|]. apply Gv; [exact (Fl_ok _ _ _ H1)|].
              pose proof (S_pos _ _ _ (Fl_S _ _ _ _ _ H1)) as Hq. cbn in Hq. lia.
        -- unfold cancel_then. destruct (e_cancel E i ib) as [es|] eqn:Hc; [|exact I].
           apply (ge_cancel E HE) in Hc.
           apply (lstt_limit_d c t i _ lim b _ (emits es s) acc s0 p); auto. now apply Mv_search_debug.
      * apply (lstt_limit_d c t i _ lim b _ s acc s0 p); auto.
Qed.

Lemma HD_orelse w b s X (J : cont -> list val -> st -> list val -> res) (N : cont -> list val -> st -> res) :
  dres w s X ->
  (forall s1 vs, Mv s s1 -> HasD w b s1 (fun k a => J k a s1 vs)) ->
  (forall s1, Fl w s s1 -> HasD w b s (fun k a => N k a s1)) ->
  HasD w b s (fun k a => orelse X (J k a) (N k a)).
Proof.
  intros HX HJ HN. destruct X as [[] s1 m| |]; cbn [orelse dres] in *.
  - destruct HX. auto.
  - destruct HX. eapply HD_S; eauto.
  - apply HD_crash.
  - apply HD_crash.
  - apply HD_no.
  - apply HD_crash.
Qed.

Lemma HD_p_lstt w b c t i sep lim s : ok s ->
  (w = false -> weak t = false /\ weak i = false /\ weaks sep = false /\ weakc c = false) ->
  HasD w b s (fun k a => p_lstt E c t i sep lim k s a).
Proof.
  intros Hs Hw. unfold p_lstt.
  set (fin := fun (k : cont) (a : list val) (s : st) (v : list val) => match e_try E t (vars s) (pos s) with
    | BR true b => e_finish E c t b k s (a ++ v) | BR false _ => Crash | BNoFuel => NoFuel | BCrash => Crash end).
  assert (Hfin : forall s1 v, ok s1 -> HasD w b s1 (fun k a => fin k a s1 v)).
  { intros s1 v H1. unfold fin.
    destruct (e_try E t (vars s1) (pos s1)) as [[|] tb| |] eqn:Ht;
      [|apply HD_crash|apply HD_no|apply HD_crash].
    apply (HD_args inp prods w b s1 (fun k a => e_finish E c t tb k s1 a) v).
    apply finish_d; auto. tauto. }
  apply (HD_orelse w b s _ 
     (fun k a s1 v => delim (e_lstt E c t i sep lim LTerm (pos s1) s1 (push v [])) (fin k a))
     (fun k a s1 => delim (e_lstt E c t i sep lim LRecovery (pos s1) s1 []) (fin k a))).
  - apply run_d; auto. tauto.
  - intros s1 v H1.
    apply (HD_delim inp prods w b s1 _ (fun k a => fin k a)).
    + eapply dres_mono; [|apply (ge_lstt E HE c t i sep lim LTerm)]; auto.
      * intros H. apply Hw in H. rewrite ?orb_false_iff. tauto.
      * eapply S_ok; eauto.
    + intros s2 vs H2. apply Hfin. eapply S_ok; eauto.
  - intros s1 H1. 
    apply (HD_delim inp prods w b s _ (fun k a => fin k a)).
    + eapply fl_then; [exact H1|]. apply (ge_lstt E HE c t i sep lim LRecovery); auto.
      exact (Fl_ok _ _ _ H1).
    + intros s2 vs H2. apply Hfin. eapply S_ok; eauto.
Qed.

(** *** find and recover *)
Lemma search_bounds f n : forall p ok b e, p + n <= length inp ->
  search inp f n p = (ok, b, e) -> p <= b /\ b <= e /\ e <= length inp.
Proof.
  induction n as [|n IH]; intros p o b e Hp; cbn [search].
  - destruct (fd_try f inp p) as [[[|] e0]|] eqn:Hf.
    + intros [= _ <- <-]. apply fd_ok in Hf; lia.
    + intros [= _ <- <-]. apply fd_ok in Hf; lia.
    + intros [= _ <- <-]. lia.
  - destruct (fd_try f inp p) as [[[|] e0]|] eqn:Hf.
    + intros [= _ <- <-]. apply fd_ok in Hf; lia.
    + intros [= _ <- <-]. apply fd_ok in Hf; lia.
    + intros H. apply IH in H; lia.
Qed.

Lemma HD_find b f s : ok s -> HasD true b s (fun k a => p_find inp f k s a).
Proof.
  intros Hs. unfold p_find. destruct (search_from inp f (pos s)) as [[o e] e'] eqn:Hf.
  apply search_bounds in Hf; [|unfold RuleDen.ok in Hs; lia].
  assert (Hm : forall z, (z = ERFinish e \/ z = ERCancel e) ->
     Mv s (setpos e (emit z (emit (EToken KError (pos s) e) (emit (ERStart (pos s)) s))))).
  { intros z Hz.
    change (setpos e (emit z (emit (EToken KError (pos s) e) (emit (ERStart (pos s)) s))))
      with (emit z (setpos e (emit (EToken KError (pos s) e) (emit (ERStart (pos s)) s)))).
    apply (S_frame inp (ERStart (pos s))); cbn; auto.
    - destruct Hz as [-> | ->]; [apply opens_R|apply opens_RC].
    - destruct Hz as [-> | ->]; exact I.
    - destruct Hz as [-> | ->]; cbn; lia.
    - destruct Hz as [-> | ->]; [apply framed_R|apply framed_RC].
    - apply (S_token inp (emit (ERStart (pos s)) s)); cbn; auto; lia. }
  destruct o.
  - apply HD_k. auto.
  - apply HD_false. apply Fl_true. auto.
Qed.

Lemma reco_step_d c lim alts b nb s0 s p : ok s -> b <= pos s -> p <= length inp ->
    Mv (emit (ERStart p) s0) (setpos b s) ->
    HasD true nb s0 (fun k a => reco_step inp E c lim alts b k s a).
Proof.
  intros Hs Hb Hp Hm. unfold reco_step.
  assert (Hb' : b <= length inp) by (unfold RuleDen.ok in Hs; lia).
  destruct (e_try E alts (vars s) (pos s)) as [[|] bs| |] eqn:Ht; try apply HD_no; try apply HD_crash.
  - eapply HD_S; [exact (Mv_search b s0 s p Hs Hb Hp Hm)|]. unfold lstt_recovered.
    apply finish_d; auto. discriminate.
  - unfold cancel_then. destruct (e_cancel E alts bs) as [es|] eqn:Hc; [|apply HD_no].
    apply (ge_cancel E HE) in Hc.
    assert (Hm' := Mv_search_debug b s0 s p es Hc Hb' Hm).
    destruct (fst (tk_try lim inp (pos (emits es s))) || eof inp (pos (emits es s))) eqn:Hl.
    + apply HD_false. apply Fl_true. exact (Mv_searchc b s0 (emits es s) p Hs Hb Hp Hm').
    + apply orb_false_iff in Hl. destruct Hl as [_ Hl]. apply eof_lt in Hl.
      eapply (ge_reco E HE) with (p := p); cbn in *; auto.
Qed.

(** *** try_ *)
Lemma HD_recw b c r s : ok s -> HasD true b s (fun k a => p_recw E c r k s a).
Proof.
  intros Hs. unfold p_recw.
  set (fin := fun k : cont => Cont false (fun s a => mark (k_fn k (emit (ERFinish (pos s)) s) a))).
  set (wsk := fun k : cont => Cont false (fun s a => ws_then E c (fin k) s a)).
  set (s1 := emit (ERStart (pos s)) s).
  assert (H1 : ok s1) by exact Hs.
  (* the parser up to the end of recovery *)
  assert (HP : HasD true false s1 (fun k a =>
     match r with None => ws_then E c k s1 a
                | Some r => e_parse E c r (Cont false (fun s a => ws_then E c k s a)) s1 a end)).
  { destruct r as [r|].
    - apply (HD_bind inp prods true false false s1 (fun k a => e_parse E c r k s1 a)
               (fun k => Cont false (fun s a => ws_then E c k s a))); auto.
      + apply parse_d; auto. discriminate.
      + intros l s2 HT. cbn [k_fn]. apply HD_ws_then; [eapply T_ok; eauto|discriminate].
    - apply HD_ws_then; auto. discriminate. }
  destruct HP as (d & Hd & Hg).
  assert (Heq : forall k a,
     (match r with None => k_fn (wsk k) s1 a | Some r => e_parse E c r (wsk k) s1 a end)
     = apply d (fin k) a).
  { intros k a. rewrite <- (Hd (fin k) a eq_refl). destruct r; reflexivity. }
  eapply HD_ext with (K' := fun k a => match apply d (fin k) a with
     | Res o s m => match m with S m => Res o s m | O => Res o (emit (ERCancel (pos s)) s) 0 end
     | x => x end).
  { intros k a _. fold s1. cbv zeta. fold (fin k). fold (wsk k). rewrite Heq. now destruct (apply d (fin k) a). }
  assert (Hpos : pos s <= length inp) by exact Hs.
  destruct d as [o s2|l s2 vs| |]; cbn [apply].
  - exists (DStop o (emit (ERCancel (pos s2)) s2)). split.
    + intros k a _. destruct o; reflexivity.
    + assert (Hm : Mv s1 s2) by (destruct o; cbn in Hg; try exact Hg; apply Hg).
      assert (Hm' : Mv s (emit (ERCancel (pos s2)) s2)).
      { apply (S_frame inp (ERStart (pos s))); cbn; auto using opens_RC, framed_RC. apply (S_ok _ _ _ Hm). }
      destruct o; cbn; auto. now apply Fl_true.
  - exists (DNext l (emit (ERFinish (pos s2)) s2) vs). split.
    + intros k a _. cbn [apply]. unfold fin. cbn [k_fn].
      destruct (k_fn k (emit (ERFinish (pos s2)) s2) (a ++ vs)) as [o s3 m| |]; cbn [mark];
        rewrite ?posts_Res, ?posts_NoFuel, ?posts_Crash; reflexivity.
    + cbn [good] in *.
      apply (T_frame inp (ERStart (pos s))); cbn; auto using opens_R, framed_R.
      apply (T_ok _ _ _ _ Hg).
  - exists DNo. split; auto. intros k a _. reflexivity.
  - exists DCr. split; auto. intros k a _. reflexivity.
Qed.


Lemma HD_fl_then w b s s1 K : Fl w s s1 -> HasD true b s1 K -> HasD w b s K.
Proof.
  intros HF (d & Hd & Hg). exists d. split; auto.
  destruct d as [[]| | |]; cbn in *; auto.
  - eapply Fl_r; eauto. apply Hg.
  - eapply S_trans; [apply HF|exact Hg].
  - eapply S_trans; [apply HF|exact Hg].
  - eapply S_trans; [apply HF|exact Hg].
  - eapply T_l; [apply HF|exact Hg].
Qed.

Lemma HD_try_after w b c term rec s P :
  (w = false -> (match term with Some t => weak t | None => false end) = false /\ weakc c = false) ->
  HasD w false s P ->
  HasD w b s (fun k a => try_after E c rec k a (P (try_cont E c term k) a)).
Proof.
  intros Hw (d & Hd & Hg).
  apply (HD_ext _ _ _ _ _ _ (fun k a => try_after E c rec k a (apply d (try_cont E c term k) a))).
  { intros k a _. now rewrite (Hd (try_cont E c term k) a eq_refl). }
  destruct d as [o s1|l s1 vs| |]; cbn [apply].
  - destruct o; cbn [sto try_after]; try apply HD_crash.
    cbn [good] in Hg. eapply HD_fl_then; [exact Hg|].
    assert (Hk : ok s1) by exact (Fl_ok _ _ _ Hg).
    unfold try_recover.
    destruct rec as [[]|]; apply parse_d; auto; discriminate.
  - cbn [good] in Hg. pose proof (T_ok _ _ _ _ Hg) as Hk.
    set (X := fun (k : cont) (a : list val) =>
       match term with None => k_fn k s1 (a ++ vs) | Some t => e_parse E c t k s1 (a ++ vs) end).
    apply (HD_ext _ _ _ _ _ _ (fun k a => posts l (X k a))).
    { intros k a _. unfold try_cont. cbn [k_fn]. fold (X k a).
      destruct (X k a) as [[] s2 m| |]; cbn [mark];
        rewrite ?posts_Res, ?posts_NoFuel, ?posts_Crash; reflexivity. }
    eapply HD_posts; [exact Hg|]. unfold X. destruct term as [t|].
    + apply (HD_args inp prods w b s1 (fun k a => e_parse E c t k s1 a) vs). apply parse_d; auto.
    + apply HD_kv. now apply S_refl.
  - apply HD_no.
  - apply HD_crash.
Qed.

(** *** Productions *)
Lemma weak_child c p : guarded prods -> weakc c = false -> weakc (child_cx prods c p) = false.
Proof.
  intros Hg Hc. destruct (Hg p) as [_ Hw]. unfold weakc, child_cx in *. cbn [cx_ws].
  destruct (p_ws (prods p)) as [w|] eqn:Hp.
  - specialize (Hw w eq_refl). now destruct (p_token (prods p)).
  - destruct (p_token (prods p)); auto.
Qed.

Lemma HD_prod_after w b c p s X : ok s ->
  (w = false -> weakc c = false) ->
  dres w (emit (EPStart p (pos s)) s) X ->
  HasD w b s (fun k a => prod_after prods E c p k a X).
Proof.
  intros Hs Hw HX. destruct X as [[] s1 m| |]; cbn [prod_after dres] in *;
    try apply HD_crash; try apply HD_no; destruct HX as [HX _].
  - apply HD_false. eapply (Fl_frame inp prods (EPStart p (pos s))); cbn; auto using opens_PC, framed_PC.
  - assert (Hm : Mv s (emit (EPFinish p (pos s1)) s1)).
    { apply (S_frame inp (EPStart p (pos s))); cbn; auto using opens_P, framed_P. apply (S_ok _ _ _ HX). }
    eapply HD_S; [exact Hm|]. unfold prod_finish.
    destruct (p_token (prods p)).
    + apply HD_ws_cont with (nb := b) (F := fun k => k); auto.
      * apply (S_ok _ _ _ Hm).
      * intros. now apply HD_id.
    + apply HD_kv. apply S_refl, (S_ok _ _ _ Hm).
Qed.

Lemma ws_body_d w c r s : ok s -> (w = false -> weak r = false /\ weakc c = false) ->
  dres w s (ws_then E c (Cont false (fun s _ => e_parse E c r final s [])) s []).
Proof.
  intros Hs Hw.
  apply (HD_run w false s (fun k a => ws_then E c k s a)); auto.
  - apply HD_ws_then; auto. tauto.
  - intros l s1 vs HT. cbn [k_fn]. apply run_d; auto. exact (T_ok _ _ _ _ HT).
Qed.

Lemma HD_prod w b c p s : ok s -> (guarded prods -> w = false -> weakc c = false) ->
  HasD w b s (fun k a => p_prod prods E c p k s a).
Proof.
  intros Hs Hw. unfold p_prod.
  set (c' := child_cx prods c p). set (r := p_rule (prods p)).
  apply HD_monog with (w := weak r || weakc c' || weakc c).
  { intros Hg H. specialize (Hw Hg H). unfold c', r. rewrite Hw, (weak_child c p Hg Hw).
    destruct (Hg p) as [-> _]. reflexivity. }
  destruct (p_ws (prods p)); apply HD_prod_after; auto; try wk.
  - apply ws_body_d; auto; wk.
  - apply run_d; auto; wk.
Qed.

Lemma ws_action_d w c r s1 : ok s1 -> (w = false -> weak r = false /\ weakc c = false) ->
  dres w s1 (ws_then E c (Cont false (e_parse E c r final)) s1 []).
Proof.
  intros Hs Hw.
  apply (HD_run w false s1 (fun k a => ws_then E c k s1 a)); auto.
  - apply HD_ws_then; auto. tauto.
  - intros l s2 vs HT. cbn [k_fn].
    pose proof (parse_d c r false s2 w (T_ok _ _ _ _ HT) Hw) as (d & Hd & Hg).
    rewrite (Hd final vs eq_refl). destruct d as [[]| | |]; cbn in *; auto.
    rewrite posts_Res. cbn. split; auto. eapply T_S_res; [exact Hg|].
    apply S_refl. exact (T_ok _ _ _ _ Hg).
Qed.

Lemma do_action_d w c p s : ok s -> (w = false -> weak (p_rule (prods p)) = false /\ weakc c = false) ->
  dres w s (do_action prods E c p s).
Proof.
  intros Hs Hw. unfold do_action.
  set (s1 := emit (EPStart p (pos s)) (emit (EGStart (pos s)) s)).
  assert (H : dres w s1 (ws_then E c (Cont false (e_parse E c (p_rule (prods p)) final)) s1 [])).
  { apply ws_action_d; auto. }
  destruct (ws_then E c _ s1 []) as [[] s2 m| |]; cbn in *; auto; destruct H as [H _]; split; auto.
  - eapply (Fl_frame inp prods (EGStart (pos s))); cbn; auto using opens_GC, framed_GC.
    + exact (Fl_ok _ _ _ H).
    + eapply (Fl_frame inp prods (EPStart p (pos s))); cbn; auto using opens_PC, framed_PC.
  - eapply (S_frame inp (EGStart (pos s))); cbn; auto using opens_G, framed_G.
    + exact (S_ok _ _ _ H).
    + eapply (S_frame inp (EPStart p (pos s))); cbn; auto using opens_P, framed_P. exact (S_ok _ _ _ H).
Qed.

Lemma HD_inc_depth w b c t s (J : cont -> list val -> st -> res) : ok s ->
  (forall s1, ok s1 -> vars s1 = vars s -> pos s1 = pos s -> HasD w b s1 (fun k a => J k a s1)) ->
  HasD w b s (fun k a => inc_depth c t s (J k a)).
Proof.
  intros Hs HJ. unfold inc_depth. destruct (cx_max c =? 0); [apply HD_crash|].
  destruct (cx_max c <=? depth s).
  - apply HD_false. now apply Fl_error.
  - eapply HD_S; [apply (S_depth inp s (S (depth s)) Hs)|]. apply HJ; auto.
Qed.

Lemma HD_depth_cont w b s P : HasD w false s P -> HasD w b s (fun k a => P (depth_cont k) a).
Proof.
  intros HP. apply (HD_bind inp prods w b false s P depth_cont); auto.
  intros l s1 HT. cbn [k_fn depth_cont]. apply HD_k. apply S_depth. exact (T_ok _ _ _ _ HT).
Qed.

Lemma HD_nows_cont w b c s P : (w = false -> weakc c = false) ->
  HasD w false s P -> HasD w b s (fun k a => P (nows_cont E c k) a).
Proof.
  intros Hw HP. apply (HD_bind inp prods w b false s P (nows_cont E c)); auto.
  intros l s1 HT. cbn [k_fn nows_cont]. pose proof (T_ok _ _ _ _ HT) as Hk.
  eapply HD_S; [apply (S_wsf inp s1 true Hk)|]. now apply HD_ws_then.
Qed.

Lemma HD_with_var w b s id (J : cont -> list val -> val -> res) :
  (forall v, vget id (vars s) = Some v -> HasD w b s (fun k a => J k a v)) ->
  HasD w b s (fun k a => with_var id s (J k a)).
Proof. intros HJ. unfold with_var. destruct (vget id (vars s)); [now apply HJ|apply HD_crash]. Qed.

Lemma HD_push_cont w b s P id sg p : HasD w false s P ->
  HasD w b s (fun k a => P (push_cont id sg p k) a).
Proof.
  intros HP. apply (HD_bind inp prods w b false s P (push_cont id sg p)); auto.
  intros l s1 HT. cbn [k_fn push_cont]. pose proof (T_ok _ _ _ _ HT) as Hk.
  apply HD_with_var. intros v _. destruct v; try apply HD_crash. apply HD_k. now apply S_vset.
Qed.

Lemma HD_capr w b c p s P : (w = false -> weakc c = false) -> HasD w true s P ->
  HasD w b s (fun k a => P (capr_cont E c p (length a) k) a).
Proof.
  intros Hw (d & Hd & Hg).
  apply (HD_ext _ _ _ _ _ _ (fun k a => apply d (capr_cont E c p (length a) k) a)).
  { intros k a _. now apply Hd. }
  destruct d as [o s1|l s1 vs| |]; cbn [apply]; try apply HD_no; try apply HD_crash.
  - exists (DStop o s1). split; [intros k a _; reflexivity|exact Hg].
  - cbn [good] in Hg. pose proof (T_ok _ _ _ _ Hg) as Hk.
    apply (HD_ext _ _ _ _ _ _ (fun k a => posts l (ws_then E c k s1 (a ++ VLex p (pos s1) :: vs)))).
    { intros k a _. cbn [capr_cont k_fn].
      rewrite firstn_app, Nat.sub_diag, firstn_all, skipn_app, Nat.sub_diag, skipn_all.
      cbn [firstn skipn app]. now rewrite app_nil_r. }
    eapply HD_posts; [exact Hg|].
    apply (HD_args inp prods w b s1 (fun k a => ws_then E c k s1 a)). now apply HD_ws_then.
Qed.

Lemma HD_create w b id v s : ok s -> HasD w b s (fun k a => p_create id v k s a).
Proof.
  intros Hs. exists (DNext [length (vars s)] (setvars ((id, v) :: vars s) s) []). split.
  - intros k a _. cbn [apply]. rewrite app_nil_r. unfold p_create. cbn [posts fold_left].
    now destruct (k_fn k (setvars ((id, v) :: vars s) s) a).
  - cbn [good]. change [length (vars s)] with ([] ++ [length (vars s)]).
    eapply T_link with (x := (id, v)); [now apply S_refl|]. apply T_S. now apply S_refl.
Qed.

(** *** repeat, combination, flags *)
Lemma weak_trailing w sp : (w = false -> weaks (Some sp) = false) -> w = false ->
  weak (trailing_rule sp) = false.
Proof. intros Hw H. apply Hw in H. destruct sp as [r []]; cbn in *; auto. Qed.

Lemma rep_more_d w c i sep n : (w = false -> weak i = false /\ weaks sep = false /\ weakc c = false) ->
  forall s acc, ok s -> dres w s (rep_more E c i sep n s acc).
Proof.
  intros Hw. induction n as [|n IH]; intros s acc Hs; cbn [rep_more].
  - destruct sep as [sp|].
    + apply dres_delim.
      * apply run_d; auto. intros H. split; [|tauto]. apply (weak_trailing w); auto. tauto.
      * intros s1 vs H1. cbn. split; auto. apply S_refl. exact (S_ok _ _ _ H1).
    + cbn. split; auto. now apply S_refl.
  - assert (Hn : forall s1 acc, ok s1 -> dres w s1
       (delim (e_parse E c i final s1 []) (fun s v => rep_more E c i sep n s (push v acc)))).
    { intros s1 acc1 H1. apply dres_delim.
      - apply run_d; auto. tauto.
      - intros s2 vs H2. apply IH. exact (S_ok _ _ _ H2). }
    destruct sep as [[sr k]|]; [|auto]. apply dres_delim.
    + apply run_d; auto. cbn in Hw. tauto.
    + intros s1 vs H1. apply Hn. exact (S_ok _ _ _ H1).
Qed.

Lemma rep_loop_d w c i sep n s : (w = false -> weak i = false /\ weaks sep = false /\ weakc c = false) ->
  ok s -> dres w s (rep_loop E c i sep n s).
Proof.
  intros Hw Hs. destruct n as [|n]; cbn [rep_loop].
  - cbn. split; auto. now apply S_refl.
  - apply dres_delim.
    + apply run_d; auto. tauto.
    + intros s2 vs H2. apply rep_more_d; auto. exact (S_ok _ _ _ H2).
Qed.

Lemma HD_rep_run w b c m i sep s vs : ok s ->
  (w = false -> weak i = false /\ weaks sep = false /\ weakc c = false) ->
  HasD w b s (fun k a => rep_run E c m i sep k a s vs).
Proof.
  intros Hs Hw. unfold rep_run. destruct (count_of vs) as [n|]; [|apply HD_crash].
  apply (HD_delim inp prods w b s _ (fun k a s' v =>
        k_fn k s' (match m with RepDiscard => a | RepList => a ++ v
                   | RepCapture => a ++ [VLex (pos s) (pos s')] end))).
  - now apply rep_loop_d.
  - intros s1 v H1. pose proof (S_ok _ _ _ H1) as Hk. destruct m.
    + now apply HD_id.
    + apply HD_kv. now apply S_refl.
    + apply HD_kv. now apply S_refl.
Qed.

Lemma weak_alts bs : weak (alts_of bs) = existsb weak bs.
Proof. destruct bs as [|b [|b' bs]]; cbn; auto. now rewrite orb_false_r. Qed.

Lemma weak_comb_alts rs : forall i, existsb weak (comb_alts i rs) = existsb weak rs.
Proof.
  induction rs as [|r rs IH]; intros i; cbn; auto.
  assert (H : existsb weak (RBr r [RCombIt i] :: comb_alts (S i) rs) = weak r || existsb weak rs).
  { cbn. rewrite IH, orb_false_r. reflexivity. }
  destruct r; cbn [comb_alts]; try exact H.
  cbn. rewrite existsb_app, IH. cbn. now rewrite orb_false_r.
Qed.

Lemma weak_comb els rs : weak (comb_choice els rs) =
  existsb weak rs || match els with Some e => weak e | None => false end.
Proof.
  unfold comb_choice. rewrite weak_alts, existsb_app, weak_comb_alts. f_equal.
  destruct els; cbn; auto. now rewrite orb_false_r.
Qed.

Lemma comb_step_d c dup alts n cnt h s acc : ok s ->
  dres (weak alts || weakc c) s (comb_step E c dup alts n cnt h s acc).
Proof.
  intros Hs. unfold comb_step. destruct (n <=? cnt).
  - cbn. split; auto. now apply S_refl.
  - assert (H : dres (weak alts || weakc c) s (e_parse E c alts final s [])) by (apply run_d; auto; wk).
    destruct (e_parse E c alts final s []) as [[] s1 m| |]; cbn in H; auto; destruct H as [H _].
    + cbn. split; auto.
    + exact I.
    + pose proof (S_ok _ _ _ H) as Hk. destruct (nth i h false).
      * eapply dres_l.
        -- eapply S_trans; [exact H|]. apply (S_error inp s1 dup (pos s) (pos s1)); auto.
           apply (S_pos _ _ _ H).
        -- apply (ge_comb E HE). exact Hk.
      * eapply dres_l; [exact H|]. apply (ge_comb E HE). exact Hk.
    + cbn. split; auto.
Qed.

Lemma flags_step_d c r t z s : ok s ->
  dres (weak r || weakc c) s (flags_step E c r t z s).
Proof.
  intros Hs. unfold flags_step.
  destruct (e_try E r (vars s) (pos s)) as [[|] b| |] eqn:Ht; try exact I.
  - apply dres_delim.
    + apply runf_d; auto; wk.
    + intros s1 vs H1. pose proof (S_ok _ _ _ H1) as Hk.
      destruct vs as [|[] [|]]; try exact I.
      destruct (Z.eqb (Z.land z z0) z0).
      * eapply dres_l; [|apply (ge_flags E HE); exact Hk].
        apply S_error; auto. apply (S_pos _ _ _ H1).
      * apply (ge_flags E HE). exact Hk.
  - apply dres_cancel_then; auto. intros es Hd. cbn. split; auto. now apply S_refl.
Qed.

(** ** One step *)
Lemma parse_step_d c r b s : ok s ->
  HasD (weak r || weakc c) b s (fun k a => parse_step inp prods E c r k s a).
Proof.
  intros Hs. destruct r; cbn [parse_step].
  - (* token *)
    apply (HD_token_parse _ _ _ _ (fun k a _ s => ws_then E c k s a)); auto.
    intros e s1 _ _ H1. apply HD_ws_then; [exact (S_ok _ _ _ H1)|]. wk.
  - apply (HD_token_parse _ _ _ _ (fun k a _ s => ws_then E c k s a)); auto.
    intros e s1 _ _ H1. apply HD_ws_then; [exact (S_ok _ _ _ H1)|]. wk.
  - (* sequence *)
    apply HD_seq; auto; wk.
  - apply HD_seq; auto. cbn [existsb]. wk.
  - now apply HD_id.
  - apply HD_p_chc; auto; wk.
  - (* if *)
    apply (HD_branch_or _ _ b c r s (fun k => k) (fun k a s => k_fn k s a)); auto; try wk.
    + intros. now apply HD_id.
    + intros. now apply HD_id.
  - (* opt *)
    apply (HD_branch_or _ _ b c r s (fun k => k) (fun k a s => k_fn k s (a ++ [VNull]))); auto; try wk.
    + intros. now apply HD_id.
    + intros es Hd. apply HD_kv. now apply S_refl.
  - (* opt with terminator *)
    destruct (e_try E r1 (vars s) (pos s)) as [[|] tb| |] eqn:Ht; try apply HD_no; try apply HD_crash.
    + apply (HD_args inp prods _ b s (fun k a => e_finish E c r1 tb k s a)).
      apply finish_d; auto; wk.
    + apply (HD_cancel_then _ b r1 tb s (fun k a s => e_parse E c r2 k s a)); auto.
      intros es _. apply parse_d; auto; wk.
  - now apply HD_err.
  - (* must *)
    apply (HD_branch_or _ _ b c r s (fun k => k) (fun k a s => p_err E t r0 s)); auto; try wk.
    + intros. now apply HD_id.
    + intros. now apply HD_err.
  - (* break *)
    exists (DStop SBreak s). split; [intros k a _; reflexivity|]. now apply S_refl.
  - (* loop *)
    assert (H : dres (weak r || weakc c) s (e_parse E c r final s [])) by (apply run_d; auto; wk).
    destruct (e_parse E c r final s []) as [[] s1 m| |]; cbn in H; try apply HD_no; try apply HD_crash;
      destruct H as [H _].
    + now apply HD_false.
    + eapply HD_S; [exact H|]. apply parse_d; [exact (S_ok _ _ _ H)|wk].
    + now apply HD_k.
  - (* while *)
    destruct (e_try E r (vars s) (pos s)) as [[|] tb| |] eqn:Ht; try apply HD_no; try apply HD_crash.
    + apply (HD_delim inp prods _ b s _ (fun k a s _ => e_parse E c (RWhile r) k s a)).
      * apply runf_d; auto; wk.
      * intros s1 vs H1. apply parse_d; [exact (S_ok _ _ _ H1)|wk].
    + apply (HD_cancel_then _ b r tb s (fun k a s => k_fn k s a)); auto.
      intros es _. now apply HD_id.
  - (* list *)
    apply (HD_delim inp prods _ b s _ (fun k a s v => delim (e_lst E c r sep s (push v [])) (sink_finish k a))).
    + apply run_d; auto; wk.
    + intros s1 vs H1. pose proof (S_ok _ _ _ H1) as Hk.
      apply (HD_delim inp prods _ b s1 _ (fun k a => sink_finish k a)).
      * eapply dres_mono; [|apply (ge_lst E HE); auto]. wk.
      * intros s2 v2 H2. apply HD_kv. apply S_refl. exact (S_ok _ _ _ H2).
  - apply HD_p_lstt; auto; wk.
  - (* nsep *)
    unfold p_nsep.
    set (F := fun k => Cont false (fun s' a => k_fn k (emit (EError t (pos s) (pos s')) s') a)).
    destruct (e_try E r (vars s) (pos s)) as [[|] tb| |] eqn:Ht; unfold branch_or; rewrite Ht;
      try apply HD_no; try apply HD_crash.
    + apply (HD_bind inp prods _ b false s (fun k a => e_finish E c r tb k s a) F); auto.
      * apply finish_d; auto; wk.
      * intros l s1 HT. cbn [k_fn F]. apply HD_k. pose proof (T_ok _ _ _ _ HT). apply S_error; auto.
        exact (T_pos _ _ _ _ HT).
    + apply (HD_cancel_then _ b r tb s (fun k a s => k_fn k s a)); auto.
      intros es _. now apply HD_id.
  - apply (HD_mono inp prods true); [discriminate|]. now apply HD_find.
  - (* recover *)
    apply (HD_mono inp prods true); [discriminate|].
    apply (ge_reco E HE c limit (alts_of bs) (pos s) b s (emit (ERStart (pos s)) s) (pos s)); auto.
    destruct s; now apply S_refl.
  - apply (HD_mono inp prods true); [discriminate|]. now apply HD_recw.
  - (* try with terminator *)
    unfold p_try. apply (HD_try_after _ b c term rec s (fun k a => e_parse E c r k s a)).
    + wk.
    + apply parse_d; auto; wk.
  - unfold p_try. apply (HD_try_after _ b c None rec s (fun k a => e_parse E c r k s a)).
    + wk.
    + apply parse_d; auto; wk.
  - apply HD_prod; auto.
  - (* recurse *)
    apply (HD_inc_depth _ b c t s (fun k a s => e_parse E c (RProd p) (depth_cont k) s a)); auto.
    intros s1 H1 _ _. apply (HD_depth_cont _ b s1 (fun k a => e_parse E c (RProd p) k s1 a)).
    apply parse_d; auto; wk.
  - apply (HD_inc_depth _ b c t s (fun k a s => e_parse E c (RProd p) (depth_cont k) s a)); auto.
    intros s1 H1 _ _. apply (HD_depth_cont _ b s1 (fun k a => e_parse E c (RProd p) k s1 a)).
    apply parse_d; auto; wk.
  - (* whitespace *)
    apply (HD_skip_ws _ b r s (fun k a s => k_fn k s a)); auto; [wk|].
    intros s1 H1. apply HD_id. exact (S_ok _ _ _ H1).
  - (* no_whitespace *)
    destruct (cx_ws c) eqn:Hc.
    + eapply HD_S; [apply (S_wsf inp s false Hs)|].
      apply (HD_nows_cont _ b c _ (fun k a => e_parse E c r k (setwsf false s) a)); [wk|].
      apply parse_d; auto; wk.
    + apply parse_d; auto; wk.
  - (* peek *)
    destruct (tmatch inp E r (pos s)) as [f e| |] eqn:Ht; [|apply HD_no|apply HD_crash].
    apply tmatch_bounds in Ht; [|exact Hs]. apply HD_k.
    eapply S_trans; [|apply S_back]; destruct f; auto; try (now apply S_refl); try exact Hs.
    apply S_error; auto; tauto.
  - (* peek_not *)
    destruct (tmatch inp E r (pos s)) as [[|] e| |] eqn:Ht; [| |apply HD_no|apply HD_crash];
      apply tmatch_bounds in Ht; try exact Hs.
    + apply HD_k. eapply S_trans; [apply (S_error inp s t (pos s) e); tauto|].
      set (s1 := emit (EError t (pos s) e) s).
      change (setpos e (emit (ERFinish e) (emit (EToken KError (pos s) e) (emit (ERStart (pos s)) s1))))
        with (emit (ERFinish e) (setpos e (emit (EToken KError (pos s) e) (emit (ERStart (pos s)) s1)))).
      apply (S_frame inp (ERStart (pos s))); cbn; auto using opens_R, framed_R; try tauto.
      apply (S_token inp (emit (ERStart (pos s)) s1)); cbn; auto; tauto.
    + apply HD_k. now apply S_back.
  - (* lookahead *)
    destruct (search_from inp f (pos s)) as [[o e0] e] eqn:Hf.
    apply search_bounds in Hf; [|unfold RuleDen.ok in Hs; lia].
    apply HD_k. eapply S_trans; [|apply S_back]; destruct o; auto; try (now apply S_refl); try exact Hs.
    apply S_error; auto; lia.
  - (* repeat *)
    apply (HD_delim inp prods _ b s _ (fun k a => rep_run E c m r2 sep k a)).
    + apply run_d; auto; wk.
    + intros s1 vs H1. apply HD_rep_run; [exact (S_ok _ _ _ H1)|wk].
  - (* combination *)
    apply (HD_delim inp prods _ b s _ (fun k a => sink_finish k a)).
    + eapply dres_mono; [|apply (ge_comb E HE); auto]. rewrite weak_comb. wk.
    + intros s2 v2 H2. apply HD_kv. apply S_refl. exact (S_ok _ _ _ H2).
  - exists (DStop (SItem i []) s). split; [intros k a _; cbn; now rewrite app_nil_r|]. now apply S_refl.
  - (* flags *)
    apply (HD_delim inp prods _ b s _ (fun k a s v => k_fn k s (a ++ v))).
    + eapply dres_mono; [|apply (ge_flags E HE); auto]. wk.
    + intros s2 v2 H2. apply HD_kv. apply S_refl. exact (S_ok _ _ _ H2).
  - (* flag *)
    destruct (e_try E r (vars s) (pos s)) as [[|] tb| |] eqn:Ht; try apply HD_no; try apply HD_crash.
    + apply (HD_args inp prods _ b s (fun k a => e_finish E c r tb k s a)). apply finish_d; auto; wk.
    + match goal with |- context [VInt ?z] =>
        apply (HD_cancel_then _ b r tb s (fun k a s => k_fn k s (a ++ [VInt z]))); auto end.
      intros es _. apply HD_kv. now apply S_refl.
  - now apply HD_create.
  - apply HD_with_var. intros v _. destruct v; try apply HD_crash. apply HD_k. now apply S_vset.
  - (* push *)
    apply (HD_push_cont _ b s (fun k a => e_parse E c r k s a)). apply parse_d; auto; wk.
  - match goal with |- context [VBool ?z] =>
      apply (HD_with_var _ b s id (fun k a _ => k_fn k (setvars (vset id (VBool z) (vars s)) s) a)) end.
    intros v _. apply HD_k. now apply S_vset.
  - apply HD_with_var. intros v _. destruct v; try apply HD_crash. apply HD_k. now apply S_vset.
  - now apply HD_id.
  - apply HD_with_var. intros v _. apply HD_kv. now apply S_refl.
  - apply HD_with_var. intros v _. destruct (all_eq v ids (vars s)) as [[|]|]; [| |apply HD_crash].
    + now apply HD_id.
    + apply HD_k. now apply S_error.
  - (* capture into a variable *)
    apply (HD_token_parse _ _ _ _ (fun k a e s1 =>
        ws_then E c (Cont false (fun s2 a =>
          with_var id s2 (fun _ => k_fn k (setvars (vset id (VLex (pos s) e) (vars s2)) s2) a)))
          s1 (a ++ [VLex (pos s) e]))); auto.
    intros e s1 _ _ H1.
    apply (HD_ws_cont _ b c s1 [VLex (pos s) e] (fun k => Cont false (fun s2 a =>
          with_var id s2 (fun _ => k_fn k (setvars (vset id (VLex (pos s) e) (vars s2)) s2) a))) false); auto.
    + exact (S_ok _ _ _ H1).
    + intros s2 H2. cbn [k_fn].
      apply (HD_with_var _ b s2 id (fun k a _ => k_fn k (setvars (vset id (VLex (pos s) e) (vars s2)) s2) a)).
      intros v _. apply HD_k. now apply S_vset.
  - (* rematch *)
    apply (HD_token_parse _ _ _ _ (fun k a e s1 =>
        ws_then E c (Cont false (fun s2 a =>
          with_var id s2 (fun v =>
            k_fn k (if lex_eqb inp v (pos s) e then s2 else emit (EError tag (pos s) e) s2) a)))
          s1 a)); auto.
    intros e s1 Ht _ H1. apply tmatch_bounds in Ht; [|exact Hs].
    eapply HD_ext; [|apply (HD_ws_cont _ b c s1 [] (fun k => Cont false (fun s2 a =>
          with_var id s2 (fun v =>
            k_fn k (if lex_eqb inp v (pos s) e then s2 else emit (EError tag (pos s) e) s2) a))) false)]; auto.
    + intros k a _. cbn beta. now rewrite app_nil_r.
    + exact (S_ok _ _ _ H1).
    + intros s2 H2. cbn [k_fn]. apply HD_with_var. intros v _. apply HD_k.
      destruct (lex_eqb inp v (pos s) e); [now apply S_refl|]. apply S_error; tauto.
  - (* return *)
    exists (DStop (STrue []) s). split; [intros k a _; cbn; now rewrite app_nil_r|]. now apply S_refl.
  - apply HD_kv. now apply S_token0.
  - (* position(rule) *)
    eapply HD_S; [apply (S_token0 inp s KPosition Hs)|].
    apply (HD_args inp prods _ b _ (fun k a => e_parse E c r k (emit (EToken KPosition (pos s) (pos s)) s) a)).
    apply parse_d; auto; wk.
  - (* capture(token) *)
    apply (HD_token_parse _ _ _ _ (fun k a e s1 => ws_then E c k s1 (a ++ [VLex (pos s) e]))); auto.
    intros e s1 _ _ H1.
    apply (HD_args inp prods _ b s1 (fun k a => ws_then E c k s1 a)).
    apply HD_ws_then; [exact (S_ok _ _ _ H1)|wk].
  - (* capture(rule) *)
    apply (HD_capr _ b c (pos s) s (fun k a => e_parse E c r k s a)); [wk|].
    apply parse_d; auto; wk.
  - (* eof *)
    apply HD_k. destruct (eof inp (pos s)); [now apply S_token0|now apply S_error].
  - (* parse_as *)
    unfold pas_after. apply (HD_delim inp prods _ b s _ (fun k a s vs => k_fn k s (a ++ [VAs vs]))).
    + apply run_d; auto; wk.
    + intros s2 v2 H2. apply HD_kv. apply S_refl. exact (S_ok _ _ _ H2).
  - (* symbol *)
    apply (HD_token_parse _ _ _ _ (fun k a e s1 =>
        ws_then E c (Cont false (fun s2 a =>
          match f (slice inp (pos s) e) with
          | None => Res OFalse (emit (EError tag (pos s) e) s2) 0
          | Some z => k_fn k s2 (a ++ [VInt z])
          end)) s1 a)); auto.
    intros e s1 Ht _ H1. apply tmatch_bounds in Ht; [|exact Hs].
    eapply HD_ext; [|apply (HD_ws_cont _ b c s1 [] (fun k => Cont false (fun s2 a =>
          match f (slice inp (pos s) e) with
          | None => Res OFalse (emit (EError tag (pos s) e) s2) 0
          | Some z => k_fn k s2 (a ++ [VInt z])
          end)) false)]; auto.
    + intros k a _. cbn beta. now rewrite app_nil_r.
    + exact (S_ok _ _ _ H1).
    + intros s2 H2. cbn [k_fn]. destruct (f (slice inp (pos s) e)).
      * apply HD_kv. now apply S_refl.
      * apply HD_false. apply Fl_error; tauto.
  - (* subgrammar *)
    set (c' := Cx (p_ws (prods p)) (cx_max c)).
    apply HD_monog with (w := weak (p_rule (prods p)) || weakc c').
    { intros Hg _. destruct (Hg p) as [-> Hw]. unfold weakc, c'. cbn [cx_ws].
      destruct (p_ws (prods p)); cbn; auto. }
    assert (H : dres (weak (p_rule (prods p)) || weakc c') (setvars [] s)
                     (do_action prods E c' p (setvars [] s))).
    { apply do_action_d; auto. intros H. now apply orb_false_iff in H. }
    assert (Hmv : forall s1, Mv (setvars [] s) s1 -> Mv s (setvars (vars s) s1)).
    { intros s1 (es & H1 & (H2 & Hg) & H3 & H4 & H5 & _). exists es. repeat split; auto. apply as_refl. }
    destruct (do_action prods E c' p (setvars [] s)) as [[] s1 m| |]; cbn in H;
      try apply HD_no; try apply HD_crash; destruct H as [H _].
    + apply HD_false. destruct H as [H1 H2]. split; [exact (Hmv _ H1)|exact H2].
    + apply HD_kv. auto.
Qed.

Lemma cancel_step_d r bs es : cancel_step inp prods E r bs = Some es -> debug es.
Proof.
  destruct r; cbn [cancel_step]; try (intros [= <-]; repeat constructor; fail);
    try apply (ge_cancel E HE).
  - apply c_chc_debug.
  - destruct (e_cancel E _ (b_in bs)) as [es'|] eqn:Hc; [|discriminate].
    intros [= <-]. constructor; [eapply ge_cancel; eauto|constructor].
Qed.

Lemma finish_step_d c r bs b s : ok s -> try_step inp prods E r (vars s) (pos s) = BR true bs ->
  HasD (weak r || weakc c) b s (fun k a => finish_step inp prods E c r bs k s a).
Proof.
  intros Hs. destruct r; cbn [try_step finish_step]; intros Ht; try discriminate; try apply HD_crash.
  - destruct (tmatch inp E (RTok t) (pos s)) as [f e| |] eqn:Hm; try discriminate.
    injection Ht as -> <-. apply tmatch_bounds in Hm; [|exact Hs]. cbn [b_end tkind_of].
    eapply HD_ext; [|apply (HD_tok_finish _ b c (tk_kind t) e s [] (fun k => k) b)]; auto; try tauto; try wk.
    + intros k a _. cbn beta. now rewrite app_nil_r.
    + intros. now apply HD_id.
  - destruct (tmatch inp E (RTokOf k r) (pos s)) as [f e| |] eqn:Hm; try discriminate.
    injection Ht as -> <-. apply tmatch_bounds in Hm; [|exact Hs]. cbn [b_end tkind_of].
    eapply HD_ext; [|apply (HD_tok_finish _ b c (k) e s [] (fun k => k) b)]; auto; try tauto; try wk.
    + intros k' a _. cbn beta. now rewrite app_nil_r.
    + intros. now apply HD_id.
  - (* branch *)
    apply (HD_bind inp prods _ b (seq_nows rs b) s (fun k a => e_finish E c r bs k s a) (seq_cont E c rs)).
    + apply finish_d; auto; wk.
    + intros k <-. apply seq_nows_eq.
    + intros l s1 HT. apply HD_seq; [wk|exact (T_ok _ _ _ _ HT)].
  - apply parse_d; auto; wk.
  - (* choice *)
    apply t_chc_inv in Ht. destruct Ht as (j & bs' & r' & bj & -> & H1 & H2 & H3). cbn [Nat.add].
    eapply HD_f_chc; eauto; wk.
  - apply parse_d; auto; wk.
  - apply finish_d; auto; wk.
  - apply parse_d; auto; wk.
  - (* list *)
    apply (HD_delim inp prods _ b s _ (fun k a s v => delim (e_lst E c r sep s (push v [])) (sink_finish k a))).
    + apply runf_d; auto; wk.
    + intros s1 vs H1. pose proof (S_ok _ _ _ H1) as Hk.
      apply (HD_delim inp prods _ b s1 _ (fun k a => sink_finish k a)).
      * eapply dres_mono; [|apply (ge_lst E HE); auto]. wk.
      * intros s2 v2 H2. apply HD_kv. apply S_refl. exact (S_ok _ _ _ H2).
  - apply (HD_try_after _ b c None rec s (fun k a => e_finish E c r bs k s a)).
    + wk.
    + apply finish_d; auto; wk.
  - (* production *)
    destruct (e_try E (p_rule (prods p)) (vars s) (pos s)) as [f b0| |] eqn:Hp; try discriminate.
    injection Ht as -> <-. cbn [b_in b_at].
    apply HD_monog with (w := weak (p_rule (prods p)) || weakc (child_cx prods c p) || weakc c).
    { intros Hg H. cbn in H. rewrite H, (weak_child c p Hg H). destruct (Hg p) as [-> _]. reflexivity. }
    apply HD_prod_after; auto; try wk.
    apply runf_d; auto; wk.
  - (* recurse_branch *)
    apply (HD_inc_depth _ b c t s (fun k a s => e_finish E c (RProd p) bs (depth_cont k) s a)); auto.
    intros s1 H1 Hv Hp. apply (HD_depth_cont _ b s1 (fun k a => e_finish E c (RProd p) bs k s1 a)).
    apply finish_d; auto; now rewrite Hv, Hp.
  - eapply HD_S; [apply (S_wsf inp s false Hs)|].
    apply (HD_nows_cont _ b c _ (fun k a => e_finish E c r bs k (setwsf false s) a)); [wk|].
    apply finish_d; auto; wk.
  - apply HD_k. now apply S_back.
  - apply HD_k. now apply S_back.
  - apply HD_k. now apply S_back.
  - (* repeat *)
    apply (HD_delim inp prods _ b s _ (fun k a => rep_run E c m r2 sep k a)).
    + apply runf_d; auto; wk.
    + intros s1 vs H1. apply HD_rep_run; [exact (S_ok _ _ _ H1)|wk].
  - apply (HD_push_cont _ b s (fun k a => e_finish E c r bs k s a)). apply finish_d; auto; wk.
  - now apply HD_id.
  - now apply HD_id.
  - (* capture into a variable *)
    destruct (tmatch inp E r (pos s)) as [f e| |] eqn:Hm; try discriminate.
    injection Ht as -> <-. apply tmatch_bounds in Hm; [|exact Hs]. cbn [b_end].
    apply (HD_tok_finish _ b c _ e s [VLex (pos s) e] (fun k => Cont false (fun s2 a =>
          with_var id s2 (fun _ => k_fn k (setvars (vset id (VLex (pos s) e) (vars s2)) s2) a))) false);
      auto; try tauto; try wk.
    intros s2 H2. cbn [k_fn].
    apply (HD_with_var _ b s2 id (fun k a _ => k_fn k (setvars (vset id (VLex (pos s) e) (vars s2)) s2) a)).
    intros v _. apply HD_k. now apply S_vset.
  - (* rematch *)
    destruct (tmatch inp E r (pos s)) as [f e| |] eqn:Hm; try discriminate.
    destruct f; [|discriminate]. destruct (vget id (vars s)); [|discriminate].
    injection Ht as _ <-. apply tmatch_bounds in Hm; [|exact Hs]. cbn [b_end].
    eapply HD_ext; [|apply (HD_tok_finish _ b c (KIdentifier) e s [] (fun k => k) b)]; auto; try tauto; try wk.
    + intros k' a _. cbn beta. now rewrite app_nil_r.
    + intros. now apply HD_id.
  - eapply HD_S; [apply (S_token0 inp s KPosition Hs)|].
    apply (HD_args inp prods _ b _ (fun k a => e_finish E c r bs k (emit (EToken KPosition (pos s) (pos s)) s) a)).
    apply finish_d; auto; wk.
  - (* capture(token) *)
    destruct (tmatch inp E r (pos s)) as [f e| |] eqn:Hm; try discriminate.
    injection Ht as -> <-. apply tmatch_bounds in Hm; [|exact Hs]. cbn [b_end].
    apply (HD_tok_finish _ b c _ e s [VLex (pos s) e] (fun k => k) b); auto; try tauto; try wk.
    intros. now apply HD_id.
  - apply (HD_capr _ b c (pos s) s (fun k a => e_finish E c r bs k s a)); [wk|].
    apply finish_d; auto; wk.
  - apply HD_k. now apply S_token0.
  - unfold pas_after. apply (HD_delim inp prods _ b s _ (fun k a s vs => k_fn k s (a ++ [VAs vs]))).
    + apply runf_d; auto; wk.
    + intros s2 v2 H2. apply HD_kv. apply S_refl. exact (S_ok _ _ _ H2).
  - (* symbol *)
    destruct (tmatch inp E r (pos s)) as [g e| |] eqn:Hm; try discriminate.
    destruct g; [|discriminate]. injection Ht as Hf <-. apply tmatch_bounds in Hm; [|exact Hs].
    cbn [b_end]. destruct (f (slice inp (pos s) e)) as [z|]; [|discriminate].
    apply (HD_tok_finish _ b c _ e s [VInt z] (fun k => k) b); auto; try tauto; try wk.
    intros. now apply HD_id.
Qed.

Lemma ge_step : ge (step inp prods E).
Proof.
  constructor; cbn [step e_parse e_try e_finish e_cancel e_wsloop e_lst e_lstt e_reco e_comb e_flags].
  - intros. now apply parse_step_d.
  - intros. now apply finish_step_d.
  - intros. eapply cancel_step_d; eauto.
  - intros. eapply wsloop_bounds; eauto.
  - intros. now apply lst_step_d.
  - intros. now apply lstt_step_d.
  - intros. eapply reco_step_d; eauto.
  - intros. now apply comb_step_d.
  - intros. now apply flags_step_d.
Qed.

End Step.

Theorem eng_good n : ge (eng inp prods n).
Proof. induction n; cbn [eng]; [apply ge_0|now apply ge_step]. Qed.

End Good.
