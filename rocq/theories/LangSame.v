(** Grammars that only differ in errors and recovery describe the same. *)
From Verif Require Import Prelude RuleModel RuleLists LangSpec.
Close Scope N_scope.

Lemma same_kind_sym k k' : same_kind k k' -> same_kind k' k.
Proof. destruct k, k'; auto. Qed.
Lemma alike_sym : forall r r', alike r r' -> alike r' r.
Proof.
  fix IH 3. intros r r' H.
  assert (HL : forall rs rs', Forall2 alike rs rs' -> Forall2 alike rs' rs).
  { fix IHL 3. intros rs rs' HF. destruct HF as [|x y l l' Hxy Hl]; constructor; [exact (IH x y Hxy)|exact (IHL l l' Hl)]. }
  destruct H; constructor; auto using same_kind_sym; try tauto.
Qed.

Section Same.
Variable inp : list N.
Variables prods prods' : nat -> production.
Hypothesis HG : alike_grammar prods prods'.

Lemma uncond_same : forall r r', alike r r' -> unconditional r = unconditional r'.
Proof. fix IH 3. intros r r' H. destruct H; cbn; auto. Qed.
Lemma branch_same : forall r r', alike r r' -> is_branch prods r = is_branch prods' r'.
Proof.
  fix IH 3. intros r r' H. destruct H; cbn; auto.
  - apply HG.
  - f_equal. induction H as [|x y l l' Hxy Hl IHl]; cbn; auto. now rewrite (uncond_same x y Hxy), IHl.
Qed.

Lemma ahead_same f f' p ok : Ahead inp f p ok -> (forall inp p, fd_try f inp p = fd_try f' inp p) -> Ahead inp f' p ok.
Proof.
  intros H Hf. induction H; [eapply Ahead_here|apply Ahead_later|apply Ahead_end]; rewrite <- ?Hf; eauto.
Qed.
Lemma cond_same r p ok : Cond inp prods r p ok -> forall r', alike r r' -> Cond inp prods' r' p ok.
Proof.
  induction 1; intros r' HA; inversion HA; subst;
    try match goal with H : forall inp p, tk_try _ inp p = tk_try _ inp p |- _ => rewrite H end;
    try (constructor; auto; fail).
  - match goal with H : Forall2 _ [] _ |- _ => inversion H end. constructor.
  - match goal with H : Forall2 _ (_ :: _) _ |- _ => inversion H; subst end. apply C_chc_hit. auto.
  - match goal with H : Forall2 _ (_ :: _) _ |- _ => inversion H; subst end. apply C_chc_miss; auto. apply IHCond2. now constructor.
  - constructor. apply IHCond. apply HG.
  - constructor. apply IHCond. constructor.
  - constructor. eapply ahead_same; eauto.
  - match goal with |- context [symbol_at inp ?t ?f ?p] => match goal with |- _ (RSym (RTok ?t') ?f' _) _ _ =>
      replace (symbol_at inp t f p) with (symbol_at inp t' f' p) end end; [constructor|].
    unfold symbol_at.
    repeat match goal with H : forall inp p, tk_try _ inp p = tk_try _ inp p |- _ => rewrite H; clear H end.
    destruct (tk_try _ inp p) as [[|] e]; auto. now match goal with H : forall l, _ l = _ l |- _ => rewrite H end.
Qed.

Inductive ajob : job -> job -> Prop :=
| J_R t0 r r' : alike r r' -> ajob (JR t0 r) (JR t0 r')
| J_S rs rs' : Forall2 alike rs rs' -> ajob (JS rs) (JS rs')
| J_W : ajob JW JW
| J_L b b' : alike b b' -> ajob (JL b) (JL b')
| J_M i i' : alike i i' -> ajob (JM i None) (JM i' None)
| J_Ms i i' r r' k k' : alike i i' -> alike r r' -> (silent_trailing k <-> silent_trailing k') -> ajob (JM i (Some (r, k))) (JM i' (Some (r', k')))
| J_T t t' i i' : alike t t' -> alike i i' -> ajob (JT t i None) (JT t' i' None)
| J_Ts t t' i i' r r' k k' : alike t t' -> alike i i' -> alike r r' -> (silent_trailing k <-> silent_trailing k') ->
    ajob (JT t i (Some (r, k))) (JT t' i' (Some (r', k')))
| J_N n i i' : alike i i' -> ajob (JN n i None) (JN n i' None)
| J_Ns n i i' r r' k k' : alike i i' -> alike r r' -> same_kind k k' -> ajob (JN n i (Some (r, k))) (JN n i' (Some (r', k')))
| J_O rs rs' : Forall2 alike rs rs' -> ajob (JO rs) (JO rs')
| J_F r r' z : alike r r' -> ajob (JF r z) (JF r' z)
| J_C rs rs' u : Forall2 alike rs rs' -> ajob (JC None rs u) (JC None rs' u)
| J_Cb rs rs' u : Forall2 alike rs rs' -> ajob (JC (Some RBreak) rs u) (JC (Some RBreak) rs' u)
| J_Ce t t' r r' rs rs' u : Forall2 alike rs rs' -> ajob (JC (Some (RErr t r)) rs u) (JC (Some (RErr t' r')) rs' u).
Definition acx (c c' : cx) : Prop := alike_ws (cx_ws c) (cx_ws c') /\ cx_max c = cx_max c'.

Lemma nested_same c c' q : acx c c' -> acx (nested prods c q) (nested prods' c' q).
Proof. intros [_ Hm]. split; [apply HG|exact Hm]. Qed.
Lemma inner_same c c' q : acx c c' -> acx (inner prods c q) (inner prods' c' q).
Proof.
  intros [H1 H2]. destruct (HG q) as (_ & H3 & H4 & _). split; [|exact H2]. unfold inner. cbn. rewrite <- H4.
  destruct (p_ws (prods q)), (p_ws (prods' q)); try contradiction; auto. destruct (p_token (prods q)); [exact I|exact H1].
Qed.
Lemma before_same q : acx (before prods q) (before prods' q).
Proof. destruct (HG q) as (_ & H3 & _). split; [exact H3|reflexivity]. Qed.
Lemma behind_same c c' q : acx c c' -> acx (behind prods c q) (behind prods' c' q).
Proof. intros [H1 _]. destruct (HG q) as (_ & _ & H4 & _). split; [|reflexivity]. unfold behind. cbn. rewrite <- H4. destruct (p_token (prods q)); [exact H1|exact I]. Qed.

Lemma pick_same rs p o : Pick inp prods rs p o -> forall rs', Forall2 alike rs rs' -> Pick inp prods' rs' p o.
Proof.
  induction 1; intros rs' HA; inversion HA; subst; constructor; eauto using cond_same.
Qed.
Lemma alike_length rs rs' : Forall2 alike rs rs' -> length rs = length rs'.
Proof. induction 1; cbn; congruence. Qed.
Lemma nth_same rs rs' : Forall2 alike rs rs' -> forall i r, nth_error rs i = Some r -> exists r', nth_error rs' i = Some r' /\ alike r r'.
Proof.
  induction 1 as [|x y l l' Hxy Hl IH]; intros [|i] r Hi; try discriminate; [|now apply IH].
  injection Hi as <-. exists y. split; [reflexivity|exact Hxy].
Qed.

Lemma alike_rev rs rs' : Forall2 alike rs rs' -> Forall2 alike (rev rs) (rev rs').
Proof. induction 1; cbn [rev]; [constructor|]. apply Forall2_app; [assumption|repeat constructor; assumption]. Qed.
Lemma break_same r r' : alike r r' ->
  match before_break r with
  | Some x => exists x', before_break r' = Some x' /\ alike x x'
  | None => before_break r' = None
  end.
Proof.
  intros H. destruct H; cbn [before_break]; try reflexivity; [eexists; split; [reflexivity|constructor]|].
  match goal with H : Forall2 _ _ _ |- _ => apply alike_rev in H; destruct H as [|x y l l' Hxy Hl] end; [reflexivity|].
  destruct Hxy; try reflexivity. eexists. split; [reflexivity|]. constructor; [assumption|]. now apply alike_rev.
Qed.

Ltac head r := tryif is_var r then fail else idtac.
Ltac inv := repeat match goal with
  | H : alike ?r _ |- _ => head r; inversion H; subst; clear H
  | H : Forall2 _ ?r _ |- _ => head r; inversion H; subst; clear H
  end.
Ltac cnd := match goal with H : Cond inp prods ?r ?p ?ok |- Cond inp prods' _ ?p ?ok => apply (cond_same r p ok H); (assumption || (constructor; assumption)) end.
Ltac job1 := constructor; repeat first [assumption | constructor; assumption | constructor; [assumption|constructor] | constructor].
Ltac drv := match goal with
  | IH : forall c' j', acx _ c' -> ajob _ j' -> Derives inp prods' c' _ j' _ _ _ |- Derives inp prods' _ _ _ _ _ _ =>
      eapply IH; [assumption || (apply inner_same; assumption) || apply before_same || (apply behind_same; assumption)|solve [job1]]
  end.
Ltac tks := match goal with H : forall inp p, tk_try _ inp p = tk_try _ inp p |- _ => first [rewrite <- H; eassumption | eassumption] end.
Ltac fin := first [cnd | eassumption | tks | drv | tauto].

Lemma derives_same c d j p vs q : Derives inp prods c d j p vs q -> forall c' j', acx c c' -> ajob j j' ->
  Derives inp prods' c' d j' p vs q.
Proof.
  induction 1; intros c' j' Hc HJ; inversion HJ; subst; clear HJ; inv.
  - eapply D_tok; fin.
  - eapply D_cap; fin.
  - apply D_nil.
  - eapply D_cons; fin.
  - eapply D_seq; fin.
  - eapply D_br; fin.
  - apply D_else.
  - eapply D_chc_hit; fin.
  - eapply D_chc_miss; fin.
  - eapply D_if_yes; fin.
  - eapply D_if_no; fin.
  - eapply D_opt_yes; fin.
  - eapply D_opt_no; fin.
  - eapply D_optt_end; fin.
  - eapply D_optt_rule; fin.
  - eapply D_must; fin.
  - eapply D_must_taken; fin.
  - eapply D_stop; fin.
  - eapply D_more; fin.
  - eapply D_loop; fin.
  - match goal with HF : Forall2 alike ?l ?l', HN : nth_error ?l _ = Some _ |- _ =>
      destruct (nth_same l l' HF _ _ HN) as (r2 & Hr2 & Har) end.
    pose proof (break_same _ _ Har) as HB. match goal with H : before_break _ = None |- _ => rewrite H in HB end.
    eapply D_o_more; [eapply pick_same; eassumption|exact Hr2|exact HB|fin|fin].
  - match goal with HF : Forall2 alike ?l ?l', HN : nth_error ?l _ = Some _ |- _ =>
      destruct (nth_same l l' HF _ _ HN) as (r2 & Hr2 & Har) end.
    pose proof (break_same _ _ Har) as HB. match goal with H : before_break _ = Some _ |- _ => rewrite H in HB end.
    destruct HB as (x2 & HB & Hx2).
    eapply D_o_break; [eapply pick_same; eassumption|exact Hr2|exact HB|fin].
  - eapply D_while; fin.
  - eapply D_lst; fin.
  - eapply D_lst; fin.
  - eapply D_m_end; [|fin]. rewrite <- H. symmetry. now apply branch_same.
  - eapply D_m_item; [|fin|fin|fin]. rewrite <- H. symmetry. now apply branch_same.
  - eapply D_m_rule; [|fin|fin]. rewrite <- H. symmetry. now apply branch_same.
  - eapply D_s_end; fin.
  - eapply D_s_trail; [fin|fin| |fin|tauto]. rewrite <- H1. symmetry. now apply branch_same.
  - eapply D_s_item; [fin|fin| |fin|fin|fin]. rewrite <- H1. symmetry. now apply branch_same.
  - eapply D_s_rule; [fin|fin| |fin|fin]. rewrite <- H1. symmetry. now apply branch_same.
  - eapply D_lstt; fin.
  - eapply D_lstt; fin.
  - eapply D_t_end; fin.
  - eapply D_t_end; fin.
  - eapply D_t_item; fin.
  - eapply D_t_trail; [fin|fin|fin|tauto].
  - eapply D_t_sep; fin.
  - eapply D_nsep; fin.
  - eapply D_tryt; fin.
  - eapply D_tryt; fin.
  - eapply D_try; fin.
  - eapply D_prod; [fin| |fin]. apply IHDerives2; [now apply inner_same|]. constructor. apply HG.
  - eapply D_prod_taken; [|fin]. apply IHDerives1; [now apply inner_same|]. constructor. apply HG.
  - eapply D_rec; [|fin]. destruct Hc as [_ <-]. assumption.
  - eapply D_recb; [|fin]. destruct Hc as [_ <-]. assumption.
  - eapply D_sub; [apply IHDerives1; [now apply nested_same|constructor]|].
    apply IHDerives2; [now apply nested_same|]. constructor. apply HG.
  - eapply D_peek. match goal with H : forall inp p, tk_try _ inp p = tk_try _ inp p |- _ => now rewrite <- H end.
  - eapply D_peekn. match goal with H : forall inp p, tk_try _ inp p = tk_try _ inp p |- _ => now rewrite <- H end.
  - apply D_pos.
  - eapply D_posr; fin.
  - now apply D_eof.
  - eapply D_pas; fin.
  - apply D_look. eapply ahead_same; eauto.
  - eapply D_sym; [fin| |fin]. match goal with H : forall l, _ l = _ l |- _ => rewrite <- H end. assumption.
  - eapply D_flag_yes; fin.
  - eapply D_flag_no; fin.
  - eapply D_flags; fin.
  - eapply D_f_end; fin.
  - eapply D_f_flag; fin.
  - eapply D_rep_none; fin.
  - eapply D_rep_none; fin.
  - eapply D_rep_some; fin.
  - eapply D_rep_some; fin.
  - apply D_n_end.
  - match goal with H : same_kind _ ?k |- _ => destruct k; try contradiction end. apply D_n_any.
  - eapply D_n_stop; [fin|]. match goal with H : same_kind ?k ?k' |- _ => destruct k, k'; try contradiction; congruence end.
  - match goal with H : same_kind _ ?k |- _ => destruct k; try contradiction end. eapply D_n_trail; fin.
  - eapply D_n_item; fin.
  - eapply D_n_sep; fin.
  - match goal with HF : Forall2 alike _ _ |- _ => pose proof (alike_length _ _ HF) as HL end.
    eapply D_comb; [rewrite <- HL; assumption|fin].
  - match goal with HF : Forall2 alike _ _ |- _ => pose proof (alike_length _ _ HF) as HL end.
    eapply D_comb; [rewrite <- HL; left; discriminate|fin].
  - match goal with HF : Forall2 alike _ _ |- _ => pose proof (alike_length _ _ HF) as HL end.
    eapply D_comb; [rewrite <- HL; left; discriminate|fin].
  - apply D_comb_one. fin.
  - match goal with HF : Forall2 alike _ _ |- _ => pose proof (alike_length _ _ HF) as HL end. apply D_c_all. lia.
  - match goal with HF : Forall2 alike _ _ |- _ => pose proof (alike_length _ _ HF) as HL end. apply D_c_all. lia.
  - match goal with HF : Forall2 alike _ _ |- _ => pose proof (alike_length _ _ HF) as HL end. apply D_c_all. lia.
  - match goal with HF : Forall2 alike ?l ?l', HN : nth_error ?l _ = Some _ |- _ =>
      destruct (nth_same l l' HF _ _ HN) as (r2 & Hr2 & Har); pose proof (alike_length _ _ HF) as HL end.
    eapply D_c_item; [lia|eapply pick_same; eassumption|exact Hr2|assumption|fin|fin].
  - match goal with HF : Forall2 alike ?l ?l', HN : nth_error ?l _ = Some _ |- _ =>
      destruct (nth_same l l' HF _ _ HN) as (r2 & Hr2 & Har); pose proof (alike_length _ _ HF) as HL end.
    eapply D_c_item; [lia|eapply pick_same; eassumption|exact Hr2|assumption|fin|fin].
  - match goal with HF : Forall2 alike ?l ?l', HN : nth_error ?l _ = Some _ |- _ =>
      destruct (nth_same l l' HF _ _ HN) as (r2 & Hr2 & Har); pose proof (alike_length _ _ HF) as HL end.
    eapply D_c_item; [lia|eapply pick_same; eassumption|exact Hr2|assumption|fin|fin].
  - match goal with HF : Forall2 alike _ _ |- _ => pose proof (alike_length _ _ HF) as HL end.
    apply D_c_stop; [lia|eapply pick_same; eassumption].
  - destruct Hc as [Hc _]. rewrite H in Hc. apply D_ws_none. destruct (cx_ws c'); [contradiction|reflexivity].
  - pose proof Hc as [Hc1 _]. rewrite H in Hc1. destruct (cx_ws c') as [w'|] eqn:Hw; [|contradiction].
    eapply D_ws; [exact Hw|]. apply IHDerives; [now split|]. constructor. exact Hc1.
Qed.

Lemma accepts_same p vs q : Accepts inp prods p vs q -> Accepts inp prods' p vs q.
Proof.
  intros (q0 & H1 & H2). destruct (HG p) as (H3 & H4 & _ & _ & H5).
  assert (Hc : acx (Cx (p_ws (prods p)) (p_max (prods p))) (Cx (p_ws (prods' p)) (p_max (prods' p)))) by (split; assumption).
  exists q0. split; eapply derives_same; eauto; constructor. exact H3.
Qed.
End Same.

Lemma grammar_sym prods prods' : alike_grammar prods prods' -> alike_grammar prods' prods.
Proof.
  intros H p. destruct (H p) as (H1 & H2 & H3 & H4 & H5). repeat split; auto using alike_sym.
  unfold alike_ws in *. destruct (p_ws (prods p)), (p_ws (prods' p)); auto using alike_sym.
Qed.
