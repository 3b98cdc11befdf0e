(** Rules that consume: from the form of a rule to what it does. *)
From Verif Require Import Prelude RuleModel RuleSpec RuleDen RuleGood RuleMono RuleSem RuleSeq RuleInv HaltSpec.
Close Scope N_scope.

Section Eats.
Variable inp : list N.
Variable prods : nat -> production.
Notation eng := (eng inp prods).
Notation ok := (ok inp).

(** Beyond [p]: every outcome ([b]), or every success. *)
Definition beyond (b : bool) (p : nat) (x : res) : Prop :=
  match x with
  | Res o s _ => pos s <= length inp /\
      match o with OTrue _ | OItem _ _ => p < pos s | _ => b = true -> p < pos s end
  | _ => True
  end.
Definition kb (b : bool) (p : nat) (k : cont) : Prop := forall s a, ok s -> p < pos s -> beyond b p (k_fn k s a).

Lemma kb_final b p : kb b p final.
Proof. intros s a Hs Hp. cbn. auto. Qed.

Lemma beyond_posts b p l x : beyond b p x -> beyond b p (posts l x).
Proof.
  destruct x as [o s m| |]; rewrite ?posts_Res, ?posts_NoFuel, ?posts_Crash; auto.
  cbn. destruct (unlinks_eq l s) as [v ->]. auto.
Qed.

Lemma beyond_den w b p s K k a : HasD inp prods w (k_nows k) s K -> p < pos s -> kb b p k -> beyond b p (K k a).
Proof.
  intros (d & Hd & Hg) Hp Hk. rewrite (Hd k a eq_refl). destruct d as [o s1|l s1 vs| |]; cbn [apply]; try exact I.
  - assert (Hm : Mv inp s s1) by (destruct o; cbn [good] in Hg; auto; now apply Fl_S in Hg).
    pose proof (S_ok _ _ _ Hm) as H1. pose proof (S_pos _ _ _ Hm) as H2. unfold RuleDen.ok in H1.
    cbn. split; auto. destruct o; cbn; intros; lia.
  - cbn [good] in Hg. apply beyond_posts. apply Hk; [exact (T_ok _ _ _ _ Hg)|].
    pose proof (T_pos _ _ _ _ Hg). lia.
Qed.

Section Step.
Variable n : nat.
Notation E := (eng n).
Let HE : ge inp prods E := eng_good inp prods n.

Lemma go_parse b p c r k s a : ok s -> p < pos s -> kb b p k -> beyond b p (e_parse E c r k s a).
Proof. intros Hs Hp Hk. exact (beyond_den _ b p s _ k a (ge_parse _ _ _ HE c r _ s Hs) Hp Hk). Qed.
Lemma go_ws b p c k s a : ok s -> p < pos s -> kb b p k -> beyond b p (ws_then E c k s a).
Proof.
  intros Hs Hp Hk. refine (beyond_den true b p s (fun k a => ws_then E c k s a) k a _ Hp Hk).
  apply HD_ws_then; auto. discriminate.
Qed.
Lemma go_seq b p c rs k : kb b p k -> kb b p (seq_cont E c rs k).
Proof.
  intros Hk. induction rs as [|r rs IH]; [exact Hk|]. intros s a Hs Hp. cbn [seq_cont k_fn]. now apply go_parse.
Qed.

(** Rules without return_ and break_, when the continuation does what is wanted. *)
Definition kw (p q : nat) (k : cont) : Prop := forall s a, ok s -> q <= pos s -> beyond false p (k_fn k s a).

Lemma noesc_den w p s K k a : HasD inp prods w (k_nows k) s K -> kw p (pos s) k ->
  (match K (Cont (k_nows k) (fun s _ => Res OFalse s 0)) [] with Res OFalse _ _ | NoFuel | Crash => True | _ => False end) ->
  beyond false p (K k a).
Proof.
  intros (d & Hd & Hg) Hk Hn. rewrite (Hd k a eq_refl). rewrite (Hd (Cont _ _) [] eq_refl) in Hn.
  destruct d as [o s1|l s1 vs| |]; cbn [apply]; try exact I.
  - cbn [apply] in Hn. destruct o; cbn [sto] in Hn; try destruct Hn.
    cbn [good] in Hg. apply Fl_S in Hg. pose proof (S_ok _ _ _ Hg) as H1. cbn. split; [exact H1|discriminate].
  - cbn [good] in Hg. apply beyond_posts. apply Hk; [exact (T_ok _ _ _ _ Hg)|]. exact (T_pos _ _ _ _ Hg).
Qed.

Lemma stop_k : RuleSeq.pk (fun o => o = OFalse) (Cont true (fun s _ => Res OFalse s 0)).
Proof. intros s a. cbn. auto. Qed.

Lemma noesc_parse p c r k s a : ok s -> noesc r = true -> kw p (pos s) k -> beyond false p (e_parse E c r k s a).
Proof.
  intros Hs Hr Hk. apply (noesc_den _ p s (fun k a => e_parse E c r k s a) k a (ge_parse _ _ _ HE c r _ s Hs) Hk).
  assert (Hpk : RuleSeq.pk (fun o => o = OFalse) (Cont (k_nows k) (fun s _ => Res OFalse s 0))) by (intros ? ?; cbn; auto).
  pose proof (RuleSeq.pe_parse _ _ _ _ _ (RuleSeq.pe_eng inp prods (fun o => o = OFalse) false false (fun _ => false) eq_refl
     ltac:(discriminate) ltac:(discriminate) ltac:(discriminate) n) c r _ s [] Hr Hpk) as H.
  destruct (e_parse E c r _ s []) as [[]| |]; cbn in H; auto; discriminate.
Qed.
Lemma noesc_finish p c r bs k s a : ok s -> noesc r = true -> e_try E r (vars s) (pos s) = BR true bs ->
  kw p (pos s) k -> beyond false p (e_finish E c r bs k s a).
Proof.
  intros Hs Hr Ht Hk.
  apply (noesc_den _ p s (fun k a => e_finish E c r bs k s a) k a (ge_finish _ _ _ HE c r bs _ s Hs Ht) Hk).
  assert (Hpk : RuleSeq.pk (fun o => o = OFalse) (Cont (k_nows k) (fun s _ => Res OFalse s 0))) by (intros ? ?; cbn; auto).
  pose proof (RuleSeq.pe_finish _ _ _ _ _ (RuleSeq.pe_eng inp prods (fun o => o = OFalse) false false (fun _ => false) eq_refl
     ltac:(discriminate) ltac:(discriminate) ltac:(discriminate) n) c r bs _ s [] Hr Hpk) as H.
  destruct (e_finish E c r bs _ s []) as [[]| |]; cbn in H; auto; discriminate.
Qed.

Lemma ws_any p c k s a : ok s -> kw p (pos s) k -> beyond false p (ws_then E c k s a).
Proof.
  intros Hs Hk. refine (noesc_den true p s (fun k a => ws_then E c k s a) k a _ Hk _).
  - apply HD_ws_then; auto. discriminate.
  - cbn beta. unfold ws_then. destruct (cx_ws c) as [w|]; [|exact I]. destruct (_ || _); [exact I|].
    unfold skip_ws. destruct (token_rule _).
    + destruct (e_wsloop _ _ _); exact I.
    + destruct (e_parse _ _ _ _ _ _) as [[]| |]; exact I.
Qed.

Lemma beyond_delim b p X J : beyond b p X -> (forall s v, ok s -> p < pos s -> beyond b p (J s v)) ->
  beyond b p (delim X J).
Proof.
  intros HX HJ. destruct X as [[] s m| |]; cbn [delim]; try exact I; cbn in HX; [exact HX|].
  destruct HX. now apply HJ.
Qed.

Lemma beyond_false p s : ok s -> beyond false p (Res OFalse s 0).
Proof. intros H. split; [exact H|discriminate]. Qed.
End Step.

Variable cp cb : nat -> bool.
Hypothesis HS : sure inp prods cp cb.
Notation eats := (eats inp cp).
Notation grabs := (grabs inp cp cb).

Fixpoint any (rs : list rule) : Prop :=
  match rs with [] => False | r :: rs => eats r \/ (noesc r = true /\ any rs) end.
Fixpoint alle (rs : list rule) : Prop :=
  match rs with [] => True | r :: rs => eats r /\ alle rs end.
Fixpoint allb (rs : list rule) : Prop :=
  match rs with [] => True | r :: rs => grabs r /\ allb rs end.

Lemma eats_seq rs : eats (RSeq rs) = any rs.
Proof. reflexivity. Qed.
Lemma eats_br b rs : eats (RBr b rs) = (eats b \/ (noesc b = true /\ any rs)).
Proof. reflexivity. Qed.
Lemma eats_chc rs : eats (RChc rs) = alle rs.
Proof. reflexivity. Qed.
Lemma grabs_chc rs : grabs (RChc rs) = allb rs.
Proof. reflexivity. Qed.

Record eat (n : nat) : Prop := {
  eat_parse : forall p r c k s a, p <= pos s -> ok s -> eats r -> kb false p k ->
    beyond false p (e_parse (eng n) c r k s a);
  eat_finish : forall p r c bs k s a, p <= pos s -> ok s -> eats r ->
    e_try (eng n) r (vars s) (pos s) = BR true bs -> kb false p k ->
    beyond false p (e_finish (eng n) c r bs k s a);
  eat_bite : forall p r c bs k s a, p <= pos s -> ok s -> grabs r ->
    e_try (eng n) r (vars s) (pos s) = BR true bs -> kb true p k ->
    beyond true p (e_finish (eng n) c r bs k s a)
}.

Lemma eat_0 : eat 0.
Proof. constructor; intros; exact I. Qed.

Section Ind.
Variable n : nat.
Hypothesis IH : eat n.
Notation E := (eng n).

Lemma eat_token t p e : p <= length inp -> eats t -> tmatch inp E t p = TR true e -> p < e.
Proof.
  intros Hp Ht.
  assert (HR : forall r, eats r -> run_token E r p = TR true e -> p < e).
  { intros r Hr. unfold run_token.
    pose proof (eat_parse n IH p r sub_cx final (sub_st p) [] ltac:(cbn; lia) Hp Hr (kb_final _ _)) as H.
    destruct (e_parse E sub_cx r final (sub_st p) []) as [[] s1 m| |]; try discriminate.
    cbn in H. intros [= _ <-]. lia. }
  destruct t; cbn [tmatch]; try (apply HR; exact Ht).
  intros [= H1 H2]. apply Ht; auto. rewrite <- H1, <- H2. now destruct (tk_try t inp p).
Qed.
Lemma tm_bound t p f e : p <= length inp -> tmatch inp E t p = TR f e -> p <= e <= length inp.
Proof. intros Hp. apply (tmatch_bounds inp prods E (eng_good inp prods n)). exact Hp. Qed.

Lemma eat_token_parse p t s J : p <= pos s -> ok s -> eats t ->
  (forall e s1, ok s1 -> p < pos s1 -> beyond false p (J e s1)) -> beyond false p (token_parse inp E t s J).
Proof.
  intros Hp Hs Ht HJ. unfold token_parse. destruct (tmatch inp E t (pos s)) as [[|] e| |] eqn:Hm; try exact I.
  - pose proof (tm_bound _ _ _ _ Hs Hm). pose proof (eat_token _ _ _ Hs Ht Hm). apply HJ.
    + unfold RuleDen.ok. cbn. lia.
    + cbn. lia.
  - pose proof (tm_bound _ _ _ _ Hs Hm). apply beyond_false. unfold RuleDen.ok. cbn. lia.
Qed.

Lemma eat_seq p c rs k : any rs -> kb false p k -> kw p p (seq_cont E c rs k).
Proof.
  intros Ha Hk. induction rs as [|r rs IHr]; [destruct Ha|]. intros s a Hs Hp. cbn [seq_cont k_fn].
  destruct Ha as [Ha|[Hn Ha]].
  - apply (eat_parse n IH); auto. now apply go_seq.
  - apply noesc_parse; auto. intros s1 a1 Hs1 Hp1. apply IHr; auto. lia.
Qed.

Lemma kw_l p q q' k : kw p q k -> q <= q' -> kw p q' k.
Proof. intros H Hq s a Hs Hp. apply H; auto. lia. Qed.

Lemma eat_branch_or p c r k s a J : p <= pos s -> ok s -> eats r -> kb false p k ->
  (forall s', ok s' -> pos s' = pos s -> beyond false p (J s')) -> beyond false p (branch_or E c r k s a J).
Proof.
  intros Hp Hs Hr Hk HJ. unfold branch_or. destruct (e_try E r (vars s) (pos s)) as [[|] bs| |] eqn:Ht; try exact I.
  - now apply (eat_finish n IH).
  - unfold cancel_then. destruct (e_cancel E r bs); [|exact I]. now apply HJ.
Qed.

Lemma eat_err p t r s : ok s -> beyond false p (p_err E t r s).
Proof.
  intros Hs. unfold p_err. destruct r as [r|]; [|now apply beyond_false].
  destruct (run_token E r (pos s)); try exact I. now apply beyond_false.
Qed.

Lemma eat_chc p c u rs k a : alle rs -> kb false p k -> forall s, p <= pos s -> ok s -> beyond false p (p_chc E c u rs k s a).
Proof.
  induction rs as [|r rs IHr]; intros Ha Hk s Hp Hs; cbn [p_chc].
  - destruct u; [exact I|now apply beyond_false].
  - destruct Ha as [H1 H2]. apply eat_branch_or; auto. intros s1 Hs1 He. apply IHr; auto. lia.
Qed.

Lemma f_chc_at b p c rs k a (P : rule -> Prop) :
  (forall r bs s, P r -> p <= pos s -> ok s -> e_try E r (vars s) (pos s) = BR true bs ->
     beyond b p (e_finish E c r bs k s a)) ->
  Forall P rs -> forall s i bs, p <= pos s -> ok s -> t_chc E rs i (vars s) (pos s) = BR true bs ->
  exists j l, bs = BChc (i + j) l /\ beyond b p (f_chc E c rs j l k s a).
Proof.
  intros HP HF. induction HF as [|r rs Hr HF IHr]; intros s i bs Hp Hs; cbn [t_chc]; [discriminate|].
  destruct (e_try E r (vars s) (pos s)) as [[|] b0| |] eqn:Ht; try discriminate.
  - intros [= <-]. exists 0, [b0]. split; [f_equal; lia|]. cbn [f_chc hd]. now apply HP.
  - destruct (t_chc E rs (S i) (vars s) (pos s)) as [[|] b1| |] eqn:Hc; try discriminate; [|destruct b1; discriminate].
    destruct (IHr s (S i) b1 Hp Hs Hc) as (j' & l' & -> & _).
    intros [= <-]. exists (S j'), (b0 :: l'). split; [f_equal; lia|]. cbn [f_chc hd tl]. unfold cancel_then.
    destruct (e_cancel E r b0) as [es|]; [|exact I].
    destruct (IHr (emits es s) (S i) _ Hp Hs Hc) as (j2 & l2 & Hj & Hb). injection Hj as Hj ->.
    assert (j2 = j') by lia. now subst.
Qed.

Lemma alle_F rs : alle rs -> Forall eats rs.
Proof. induction rs; intros H; constructor; destruct H; auto. Qed.
Lemma allb_F rs : allb rs -> Forall grabs rs.
Proof. induction rs; intros H; constructor; destruct H; auto. Qed.

Lemma go_lst b p c i sep s acc k args : ok s -> p < pos s -> kb b p k ->
  beyond b p (delim (e_lst E c i sep s acc) (sink_finish k args)).
Proof.
  intros Hs Hp Hk. pose proof (ge_lst _ _ _ (eng_good inp prods n) c i sep s acc Hs) as H.
  assert (HX : beyond b p (e_lst E c i sep s acc)).
  { destruct (e_lst E c i sep s acc) as [o s1 m| |]; try exact I.
    assert (Hm : Mv inp s s1) by (destruct o; cbn [dres] in H; destruct H as [H _]; auto; now apply Fl_S in H).
    pose proof (S_ok _ _ _ Hm) as H1. pose proof (S_pos _ _ _ Hm). cbn. split; [exact H1|]. destruct o; intros; lia. }
  apply beyond_delim; auto. intros s1 v Hs1 Hp1. now apply Hk.
Qed.

Lemma go_res b p c r s : ok s -> p < pos s -> beyond b p (e_parse E c r final s []).
Proof. intros. apply go_parse; auto. apply kb_final. Qed.

Lemma go_rep_more b p c item sep m : forall s acc, ok s -> p < pos s -> beyond b p (rep_more E c item sep m s acc).
Proof.
  induction m as [|m IHm]; intros s acc Hs Hp; cbn [rep_more].
  - destruct sep as [sp|]; [|split; auto]. apply beyond_delim; [now apply go_res|]. intros s1 v H1 H2. split; auto.
  - assert (HN : forall s acc, ok s -> p < pos s ->
      beyond b p (delim (e_parse E c item final s []) (fun s v => rep_more E c item sep m s (push v acc)))).
    { intros s1 acc1 H1 H2. apply beyond_delim; [now apply go_res|]. auto. }
    destruct sep as [[sr k0]|]; [|now apply HN]. apply beyond_delim; [now apply go_res|]. auto.
Qed.

Lemma go_rep b p c m item sep k args s vs : ok s -> p < pos s -> kb b p k ->
  beyond b p (rep_run E c m item sep k args s vs).
Proof.
  intros Hs Hp Hk. unfold rep_run. destruct (count_of vs) as [m0|]; [|exact I].
  apply beyond_delim; [|intros; now apply Hk]. destruct m0; cbn [rep_loop]; [split; auto|].
  apply beyond_delim; [now apply go_res|]. intros. now apply go_rep_more.
Qed.

Lemma kb_nows b p c k : kb b p k -> kb b p (nows_cont E c k).
Proof. intros Hk s a Hs Hp. cbn [nows_cont k_fn]. now apply go_ws. Qed.
Lemma kb_depth b p k : kb b p k -> kb b p (depth_cont k).
Proof. intros Hk s a Hs Hp. cbn. now apply Hk. Qed.
Lemma kb_push b p id sign q k : kb b p k -> kb b p (push_cont id sign q k).
Proof.
  intros Hk s a Hs Hp. cbn [push_cont k_fn]. unfold with_var. destruct (vget id (vars s)) as [v|]; [|exact I].
  destruct v; try exact I. now apply Hk.
Qed.
Lemma kb_capr b p c q m k : kb b p k -> kb b p (capr_cont E c q m k).
Proof. intros Hk s a Hs Hp. cbn [capr_cont k_fn]. now apply go_ws. Qed.

Lemma go_prod_after b p c q k args X : beyond b p X -> kb b p k -> beyond b p (prod_after prods E c q k args X).
Proof.
  intros HX Hk. destruct X as [[] s m| |]; cbn [prod_after]; try exact I; cbn in HX; [exact HX|].
  destruct HX as [H1 H2]. unfold prod_finish. destruct (p_token (prods q)); [now apply go_ws|now apply Hk].
Qed.
Lemma go_pas b p k args X : beyond b p X -> kb b p k -> beyond b p (pas_after k args X).
Proof. intros HX Hk. unfold pas_after. apply beyond_delim; [exact HX|intros; now apply Hk]. Qed.

Lemma eat_body p c r k s a : p <= pos s -> ok s -> eats r -> kb false p k ->
  beyond false p (ws_then E c (Cont false (fun s _ => e_parse E c r k s a)) s []).
Proof.
  intros Hp Hs Hr Hk. apply ws_any; auto. intros s1 a1 H1 H2. cbn [k_fn]. apply (eat_parse n IH); auto. lia.
Qed.

Lemma eat_depth p c t s J : ok s -> (forall d, beyond false p (J (setdepth d s))) ->
  beyond false p (inc_depth c t s J).
Proof.
  intros Hs HJ. unfold inc_depth. destruct (_ =? _); [exact I|]. destruct (_ <=? _); [now apply beyond_false|].
  apply HJ.
Qed.

Lemma with_var_b b p id s J : (forall v, beyond b p (J v)) -> beyond b p (with_var id s J).
Proof. intros H. unfold with_var. destruct (vget _ _); [apply H|exact I]. Qed.

Lemma eat_step_parse p r c k s a : p <= pos s -> ok s -> eats r -> kb false p k ->
  beyond false p (parse_step inp prods E c r k s a).
Proof.
  intros Hp Hs Hr Hk. destruct r; try (exfalso; exact Hr); cbn [parse_step].
  - apply eat_token_parse; auto. intros. now apply go_ws.
  - apply (eat_token_parse p (RTokOf k0 r)); auto. intros. now apply go_ws.
  - exact (eat_seq p c rs k Hr Hk s a Hs Hp).
  - exact (eat_seq p c (r :: rs) k Hr Hk s a Hs Hp).
  - apply eat_chc; auto.
  - now apply eat_err.
  - apply eat_branch_or; auto. intros s1 H1 H2. now apply eat_err.
  - split; [exact Hs|discriminate].
  - apply beyond_delim; [apply (eat_parse n IH); auto; apply kb_final|]. intros. now apply go_lst.
  - destruct (HS p0) as [H _]. specialize (H Hr). unfold p_prod. destruct (p_ws (prods p0)).
    + apply go_prod_after; auto. apply (eat_body p _ _ final _ []); auto. apply kb_final.
    + apply go_prod_after; auto. apply (eat_parse n IH); auto. apply kb_final.
  - apply eat_depth; auto. intros d. apply (eat_parse n IH); auto. now apply kb_depth.
  - apply eat_depth; auto. intros d. apply (eat_parse n IH); auto. now apply kb_depth.
  - destruct (cx_ws c); apply (eat_parse n IH); auto. now apply kb_nows.
  - apply beyond_delim; [apply (eat_parse n IH); auto; apply kb_final|]. intros. now apply go_rep.
  - apply (eat_parse n IH); auto. now apply kb_push.
  - apply eat_token_parse; auto. intros e s1 H1 H2. apply go_ws; auto. intros s2 a2 H3 H4. cbn [k_fn].
    apply with_var_b. intros. now apply Hk.
  - apply eat_token_parse; auto. intros e s1 H1 H2. apply go_ws; auto. intros s2 a2 H3 H4. cbn [k_fn].
    apply with_var_b. intros v. destruct (lex_eqb _ _ _ _); now apply Hk.
  - apply (eat_parse n IH); auto.
  - apply eat_token_parse; auto. intros e s1 H1 H2. now apply go_ws.
  - apply (eat_parse n IH); auto. now apply kb_capr.
  - apply go_pas; auto. apply (eat_parse n IH); auto. apply kb_final.
  - apply eat_token_parse; auto. intros e s1 H1 H2. apply go_ws; auto. intros s2 a2 H3 H4. cbn [k_fn].
    destruct (f _); [now apply Hk|now apply beyond_false].
  - destruct (HS p0) as [H _]. specialize (H Hr).
    assert (HX : beyond false p (do_action prods E (Cx (p_ws (prods p0)) (cx_max c)) p0 (setvars [] s))).
    { unfold do_action. set (s0 := emit _ _).
      assert (HB : beyond false p (ws_then E (Cx (p_ws (prods p0)) (cx_max c)) (Cont false
        (e_parse E (Cx (p_ws (prods p0)) (cx_max c)) (p_rule (prods p0)) final)) s0 [])).
      { apply ws_any; auto. intros s1 a1 H1 H2. cbn [k_fn]. apply (eat_parse n IH); auto; [cbn in H2; lia|apply kb_final]. }
      destruct (ws_then _ _ _ _ _) as [[] s1 m| |]; exact HB || exact I. }
    destruct (do_action _ _ _ _ _) as [[] s1 m| |]; try exact I; [exact HX|]. destruct HX. now apply Hk.
Qed.

Lemma tok_fin b p c kd e k s a : p < e <= length inp -> kb b p k -> beyond b p (tok_finish E c kd e k s a).
Proof. intros He Hk. unfold tok_finish. apply go_ws; auto; cbn; [unfold RuleDen.ok; cbn|]; lia. Qed.

(** Taking a token as a branch. *)
Lemma taken_end t s ok0 e p : ok s -> eats t -> p <= pos s -> tmatch inp E t (pos s) = TR ok0 e -> ok0 = true ->
  p < e <= length inp.
Proof.
  intros Hs Ht Hp Hm ->. pose proof (tm_bound _ _ _ _ Hs Hm). pose proof (eat_token _ _ _ Hs Ht Hm). lia.
Qed.

Ltac taken H := match type of H with context [tmatch inp E ?t ?p] => destruct (tmatch inp E t p) as [[|] ?| |] eqn:?; try discriminate H end.

Lemma eat_step_finish p r c bs k s a : p <= pos s -> ok s -> eats r ->
  try_step inp prods E r (vars s) (pos s) = BR true bs -> kb false p k ->
  beyond false p (finish_step inp prods E c r bs k s a).
Proof.
  intros Hp Hs Hr Ht Hk. destruct r; try (exfalso; exact Hr); try discriminate Ht; cbn [finish_step try_step] in *.
  - taken Ht. injection Ht as <-. apply tok_fin; auto. eapply (taken_end (RTok t)); eauto.
  - taken Ht. injection Ht as <-. apply tok_fin; auto. eapply (taken_end (RTokOf k0 r)); eauto.
  - destruct Hr as [Hr|[H1 H2]].
    + apply (eat_finish n IH); auto. now apply go_seq.
    + apply noesc_finish; auto. apply (kw_l p p); auto. now apply eat_seq.
  - destruct (f_chc_at false p c rs k a eats ltac:(intros; now apply (eat_finish n IH)) (alle_F _ Hr) s 0 bs Hp Hs Ht)
      as (j & l & -> & Hb). exact Hb.
  - apply (eat_parse n IH); try exact I; auto.
  - apply (eat_finish n IH); auto.
  - apply (eat_parse n IH); try exact I; auto.
  - apply beyond_delim; [apply (eat_finish n IH); auto; apply kb_final|]. intros. now apply go_lst.
  - destruct (HS p0) as [H _]. specialize (H Hr).
    destruct (e_try E (p_rule (prods p0)) (vars s) (pos s)) as [[|] b0| |] eqn:Hq; try discriminate.
    injection Ht as <-. apply go_prod_after; auto. cbn [b_in]. apply (eat_finish n IH); auto. apply kb_final.
  - apply eat_depth; auto. intros d. apply (eat_finish n IH); auto. now apply kb_depth.
  - apply (eat_finish n IH); auto. now apply kb_nows.
  - apply beyond_delim; [apply (eat_finish n IH); auto; apply kb_final|]. intros. now apply go_rep.
  - apply (eat_finish n IH); auto. now apply kb_push.
  - taken Ht. injection Ht as <-. apply tok_fin; [eapply (taken_end r); eauto|].
    intros s2 a2 H3 H4. cbn [k_fn]. apply with_var_b. intros. now apply Hk.
  - taken Ht. destruct (vget id (vars s)); [|discriminate]. injection Ht as _ <-.
    apply tok_fin; auto. eapply (taken_end r); eauto.
  - apply (eat_finish n IH); auto.
  - taken Ht. injection Ht as <-. apply tok_fin; auto. eapply (taken_end r); eauto.
  - apply (eat_finish n IH); auto. now apply kb_capr.
  - apply go_pas; auto. apply (eat_finish n IH); auto. apply kb_final.
  - taken Ht. injection Ht as _ <-. cbn [b_end]. destruct (f _); [|exact I]. apply tok_fin; auto. eapply (taken_end r); eauto.
Qed.

Lemma eat_step_bite p r c bs k s a : p <= pos s -> ok s -> grabs r ->
  try_step inp prods E r (vars s) (pos s) = BR true bs -> kb true p k ->
  beyond true p (finish_step inp prods E c r bs k s a).
Proof.
  intros Hp Hs Hr Ht Hk. destruct r; try (exfalso; exact Hr); try discriminate Ht; cbn [finish_step try_step] in *.
  - taken Ht. injection Ht as <-. apply tok_fin; auto. eapply (taken_end (RTok t)); eauto.
  - taken Ht. injection Ht as <-. apply tok_fin; auto. eapply (taken_end (RTokOf k0 r)); eauto.
  - apply (eat_bite n IH); auto. now apply go_seq.
  - destruct (f_chc_at true p c rs k a grabs ltac:(intros; now apply (eat_bite n IH)) (allb_F _ Hr) s 0 bs Hp Hs Ht)
      as (j & l & -> & Hb). exact Hb.
  - apply (eat_bite n IH); auto.
  - apply beyond_delim; [apply (eat_bite n IH); auto; apply kb_final|]. intros. now apply go_lst.
  - destruct (HS p0) as [_ H]. specialize (H Hr).
    destruct (e_try E (p_rule (prods p0)) (vars s) (pos s)) as [[|] b0| |] eqn:Hq; try discriminate.
    injection Ht as <-. apply go_prod_after; auto. cbn [b_in]. apply (eat_bite n IH); auto. apply kb_final.
  - apply (eat_bite n IH); auto. now apply kb_nows.
  - apply beyond_delim; [apply (eat_bite n IH); auto; apply kb_final|]. intros. now apply go_rep.
  - apply (eat_bite n IH); auto. now apply kb_push.
  - taken Ht. injection Ht as <-. apply tok_fin; [eapply (taken_end r); eauto|].
    intros s2 a2 H3 H4. cbn [k_fn]. apply with_var_b. intros. now apply Hk.
  - taken Ht. destruct (vget id (vars s)); [|discriminate]. injection Ht as _ <-.
    apply tok_fin; auto. eapply (taken_end r); eauto.
  - apply (eat_bite n IH); auto.
  - taken Ht. injection Ht as <-. apply tok_fin; auto. eapply (taken_end r); eauto.
  - apply (eat_bite n IH); auto. now apply kb_capr.
  - apply go_pas; auto. apply (eat_bite n IH); auto. apply kb_final.
  - taken Ht. injection Ht as _ <-. cbn [b_end]. destruct (f _); [|exact I]. apply tok_fin; auto. eapply (taken_end r); eauto.
Qed.
End Ind.

Lemma eat_all n : eat n.
Proof.
  induction n as [|n IH]; [exact eat_0|]. constructor; cbn [RuleModel.eng step e_parse e_try e_finish]; intros.
  - now apply eat_step_parse.
  - now apply eat_step_finish.
  - now apply eat_step_bite.
Qed.

(** ** What the loops need *)
Lemma eats_advances r : eats r -> advances inp prods r.
Proof.
  intros Hr c s vs s1 Hs H. apply Runs_at in H. destruct H as (n & m & H).
  pose proof (eat_parse n (eat_all n) (pos s) r c final s [] ltac:(lia) Hs Hr (kb_final _ _)) as HB.
  rewrite H in HB. cbn in HB. lia.
Qed.
Lemma eats_item r : eats r -> item_advances inp prods r.
Proof.
  intros Hr c s i vs s1 Hs H. apply Runs_at in H. destruct H as (n & m & H).
  pose proof (eat_parse n (eat_all n) (pos s) r c final s [] ltac:(lia) Hs Hr (kb_final _ _)) as HB.
  rewrite H in HB. cbn in HB. lia.
Qed.
Lemma take_at c r s o s1 : Takes inp prods c r s o s1 -> exists n b m,
  e_try (eng n) r (vars s) (pos s) = BR true b /\ e_finish (eng n) c r b final s [] = Res o s1 m.
Proof.
  intros (b & [N HN] & m & [M HM]). exists (N + M), b, m. split; [apply HN|apply HM]; lia.
Qed.
Lemma eats_taken r : eats r -> taken_advances inp prods r.
Proof.
  intros Hr c s vs s1 Hs H. apply take_at in H. destruct H as (n & b & m & Ht & Hf).
  pose proof (eat_finish n (eat_all n) (pos s) r c b final s [] ltac:(lia) Hs Hr Ht (kb_final _ _)) as HB.
  rewrite Hf in HB. cbn in HB. lia.
Qed.
Lemma grabs_taken r : grabs r -> taken_moves inp prods r.
Proof.
  intros Hr c s o s1 Hs H. apply take_at in H. destruct H as (n & b & m & Ht & Hf).
  pose proof (eat_bite n (eat_all n) (pos s) r c b final s [] ltac:(lia) Hs Hr Ht (kb_final _ _)) as HB.
  rewrite Hf in HB. cbn in HB. destruct o; intuition lia.
Qed.
Lemma eats_match r : eats r -> match_advances inp prods r.
Proof. intros Hr p e Hp H. apply ev_at in H. destruct H as [n H]. eapply eat_token; eauto. apply eat_all. Qed.

Lemma alle_app l l' : alle (l ++ l') <-> alle l /\ alle l'.
Proof. induction l; cbn; [tauto|]. rewrite IHl. tauto. Qed.
Lemma eats_or r : eats r -> eats (chc_or r RBreak).
Proof.
  intros H. destruct r; cbn [chc_or]; try (exact (conj H (conj I I))); try (exact H).
  rewrite eats_chc in *. apply alle_app. split; [exact H|exact (conj I I)].
Qed.
Lemma eats_ws w : eats (strip_ws w) -> ws_moves inp prods w.
Proof.
  intros H. unfold ws_moves. destruct (token_rule (strip_ws w)); [now apply eats_match|].
  apply eats_advances. now apply eats_or.
Qed.

Lemma loops_move r : loop_eats inp prods cp cb r -> loop_moves inp prods r.
Proof.
  destruct r; cbn [loop_eats loop_moves]; auto using eats_advances, eats_taken, eats_item, eats_ws.
  - intros [H|H]; [left|right].
    + destruct (is_branch prods r); auto using eats_advances, eats_taken.
    + destruct sep as [[sr k]|]; auto using eats_taken.
  - intros [H1 H2]. split; [now apply eats_advances|split; [intros _; now apply eats_taken|]].
    destruct sep as [[sr k]|]; auto using grabs_taken.
Qed.
End Eats.
