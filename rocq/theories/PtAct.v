(** From parse events to trees: the handler of parse_as_tree builds the tree of PtActSpec.v. *)
From Verif Require Import Prelude RuleModel RuleSpec RuleDen PtModel PtSpec PtMem PtProofs PtNav PtWalk PtActModel PtActSpec.
Close Scope N_scope.

(** Induction over segments, in which an untaken branch is a segment too. *)
Lemma seg_ind' (P : nat -> list event -> nat -> Prop) :
  (forall p, P p [] p) ->
  (forall p k e es q, p <= e -> segment e es q -> P e es q -> P p (EToken k p e :: es) q) ->
  (forall p e es q,
    match e with EToken _ _ _ | EPStart _ _ | EPFinish _ _ | EPCancel _ _ => False | _ => True end ->
    segment p es q -> P p es q -> P p (e :: es) q) ->
  (forall p a es r es' q, segment p es r -> P p es r -> segment r es' q -> P r es' q ->
    P p (EPStart a p :: es ++ EPFinish a r :: es') q) ->
  (forall p a es r es' q, segment p es r -> P p es r -> segment r es' q -> P r es' q ->
    P p (EPStart a p :: es ++ EPCancel a r :: es') q) ->
  (forall p a x es es' q, debug es -> segment x es x -> P x es x -> segment p es' q -> P p es' q ->
    P p (EPStart a x :: es ++ EPCancel a x :: es') q) ->
  forall p es q, segment p es q -> P p es q.
Proof.
  intros H1 H2 H3 H4 H5 H6.
  assert (G : forall n p es q, length es <= n -> segment p es q -> P p es q).
  { induction n as [|n IH]; intros p es q Hn H.
    - destruct es; [|cbn in Hn; lia]. inversion H; subst. apply H1.
    - inversion H; subst; cbn [length] in Hn; rewrite ?app_length in Hn; cbn [length] in Hn.
      + apply H1.
      + apply H2; auto. apply IH; auto. lia.
      + apply H3; auto. apply IH; auto. lia.
      + apply H4; auto; apply IH; auto; lia.
      + apply H5; auto; apply IH; auto; lia.
      + pose proof (seg_debug x es0 H0) as Hd. apply H6; auto; apply IH; auto; lia. }
  intros p es q H. exact (G _ p es q (Nat.le_refl _) H).
Qed.

Lemma seg_le p es q : segment p es q -> p <= q.
Proof. induction 1 using seg_ind'; lia. Qed.

Lemma harmless_app infos p es q : segment p es q -> forall es' stk stk2,
  harmless infos (es ++ es') stk = harmless infos es stk2 && harmless infos es' stk.
Proof.
  intros H. induction H as [p|p k e es q Hpe H IH|p e es q He H IH|p a es r es1 q H IH H1 IH1|p a es r es1 q H IH H1 IH1|p a x es es1 q Hd H IH H1 IH1] using seg_ind'; intros es' stk stk2.
  - reflexivity.
  - cbn. apply IH.
  - destruct e; try destruct He; cbn; apply IH.
  - cbn. rewrite <- app_assoc. rewrite (IH _ (p :: stk) (p :: stk2)). cbn.
    rewrite (IH (EPFinish a r :: es1) (p :: stk2) (p :: stk2)). cbn. rewrite (IH1 es' stk stk2). now rewrite andb_assoc.
  - cbn. rewrite <- app_assoc. rewrite (IH _ (p :: stk) (p :: stk2)). cbn.
    rewrite (IH (EPCancel a r :: es1) (p :: stk2) (p :: stk2)). cbn. rewrite (IH1 es' stk stk2). now rewrite !andb_assoc.
  - cbn. rewrite <- app_assoc. rewrite (IH _ (x :: stk) (x :: stk2)). cbn.
    rewrite (IH (EPCancel a x :: es1) (x :: stk2) (x :: stk2)). cbn. rewrite (IH1 es' stk stk2). now rewrite !andb_assoc.
Qed.

(** ** Siblings *)
Definition ts_ok (p : nat) (ts : list ptree) : Prop := forall k b e, In (TTok k b e) ts -> b <= p.

Lemma ts_ok_mono p q ts : ts_ok p ts -> p <= q -> ts_ok q ts.
Proof. intros H Hq k b e Hi. specialize (H k b e Hi). lia. Qed.

Lemma with_token_cases k b e ts :
  with_token k b e ts = ts /\ ignore_if_empty k && (b =? e) = true \/
  ignore_if_empty k && (b =? e) = false /\
  ((exists r b0 e0, k = KError /\ ts = r ++ [TTok KError b0 e0] /\ with_token k b e ts = r ++ [TTok KError b0 e]) \/
   with_token k b e ts = ts ++ [TTok k b e] /\
     (k = KError -> forall r b0 e0, ts <> r ++ [TTok KError b0 e0])).
Proof.
  unfold with_token. destruct (ignore_if_empty k && (b =? e)) eqn:E; [auto|right].
  split; [reflexivity|].
  assert (Hk : k = KError \/ k <> KError) by (destruct k; ((left; reflexivity) || (right; discriminate))).
  destruct Hk as [->|Hk].
  - destruct (rev ts) as [|x r] eqn:Er.
    + right. split; [reflexivity|]. intros _ r b0 e0 ->. rewrite rev_app_distr in Er. discriminate.
    + assert (Ht : ts = rev r ++ [x]) by (rewrite <- (rev_involutive ts), Er; reflexivity).
      destruct x as [k0 b0 e0|id tok kids].
      * destruct k0; try (right; split; [reflexivity|]; intros _ r1 b1 e1 E1; rewrite E1 in Ht; apply app_inj_tail in Ht; destruct Ht as [_ Ht]; discriminate).
        left. exists (rev r), b0, e0. auto.
      * right. split; [reflexivity|]. intros _ r1 b1 e1 E1; rewrite E1 in Ht; apply app_inj_tail in Ht; destruct Ht as [_ Ht]; discriminate.
  - right. split; [destruct k; (reflexivity || congruence)|congruence].
Qed.

Lemma with_token_ok k b e p q ts : ts_ok p ts -> p <= q -> b <= q -> ts_ok q (with_token k b e ts).
Proof.
  intros H Hpq Hb. destruct (with_token_cases k b e ts) as [[-> _]|[_ [(r & b0 & e0 & _ & Ht & ->)|[-> _]]]].
  - eapply ts_ok_mono; eauto.
  - intros k1 b1 e1 Hi. apply in_app_or in Hi. destruct Hi as [Hi|[[= <- <- <-]|[]]].
    + pose proof (H k1 b1 e1). subst ts. enough (b1 <= p) by lia. apply H0. apply in_or_app. auto.
    + pose proof (H KError b0 e0). subst ts. enough (b0 <= p) by lia. apply H0. apply in_or_app. right. now left.
  - intros k1 b1 e1 Hi. apply in_app_or in Hi. destruct Hi as [Hi|[[= <- <- <-]|[]]]; auto.
    specialize (H _ _ _ Hi). lia.
Qed.

Lemma spec_with_token k b e p f : ts_ok p (f_kids f) -> p <= e -> b <= e ->
  spec_token k b e f = Some (Frame (f_prod f) (with_token k b e (f_kids f))).
Proof.
  intros H Hpe Hbe. unfold spec_token, with_token. destruct f as [pr ts]. cbn [f_prod f_kids] in *.
  destruct (ignore_if_empty k && (b =? e)); [reflexivity|]. unfold add. cbn [f_prod f_kids].
  assert (Hle : (b <=? e) = true) by now apply Nat.leb_le. rewrite Hle.
  destruct k; try reflexivity. destruct (rev ts) as [|x r] eqn:Er; [reflexivity|]. destruct x as [k0 b0 e0|]; [|reflexivity].
  destruct k0; try reflexivity.
  assert (Ht : ts = rev r ++ [TTok KError b0 e0]) by (rewrite <- (rev_involutive ts), Er; reflexivity).
  assert (b0 <= p). { apply (H KError b0 e0). rewrite Ht. apply in_or_app. right. now left. }
  destruct (Nat.leb_spec b0 e); [reflexivity|lia].
Qed.

(** An empty error token anywhere is left out. *)
Lemma with_token_empty b ts : with_token KError b b ts = ts.
Proof. unfold with_token. cbn. now rewrite Nat.eqb_refl. Qed.
Lemma spec_token_empty b f : spec_token KError b b f = Some f.
Proof. unfold spec_token. cbn. now rewrite Nat.eqb_refl. Qed.

Lemma in_a_row_join p l q l' r : in_a_row p l q -> in_a_row q l' r -> in_a_row p (l ++ l') r.
Proof. induction 1; cbn; auto. intros. constructor; auto. Qed.
Lemma in_a_row_le p l q : in_a_row p l q -> p <= q.
Proof. induction 1; lia. Qed.
Lemma in_a_row_nil p q : in_a_row p [] q -> p = q.
Proof. now inversion 1. Qed.

Definition row (p : nat) (ts : list ptree) (q : nat) : Prop := in_a_row p (flat_map leaves ts) q.

Lemma row_token p0 ts p k e : row p0 ts p -> p <= e -> row p0 (with_token k p e ts) e.
Proof.
  unfold row. intros H Hp. destruct (with_token_cases k p e ts) as [[-> E]|[_ [(r & b0 & e0 & -> & -> & ->)|[-> _]]]].
  - apply andb_true_iff in E. destruct E as [_ E]. apply Nat.eqb_eq in E. now subst.
  - rewrite flat_map_app in *. apply in_a_row_app in H. destruct H as (x & H1 & H2). eapply in_a_row_join; [exact H1|].
    cbn in *. inversion H2 as [|? ? ? ? ? Hb0 H3]; subst. apply in_a_row_nil in H3. subst. repeat constructor. lia.
  - rewrite flat_map_app. eapply in_a_row_join; [exact H|]. cbn. repeat constructor. exact Hp.
Qed.

Definition fulls (ts : list ptree) : bool := forallb full ts.
Lemma fulls_token k b e ts : fulls ts = true -> fulls (with_token k b e ts) = true.
Proof.
  unfold fulls. intros H. destruct (with_token_cases k b e ts) as [[-> E]|[_ [(r & b0 & e0 & -> & -> & ->)|[-> _]]]]; auto;
    rewrite forallb_app in *; rewrite andb_true_iff in *; cbn in *; tauto.
Qed.
Lemma fulls_nonempty b ts : fulls ts = true -> fulls (nonempty b ts) = true.
Proof. destruct ts; auto. Qed.
Lemma full_node id tok b ts : fulls ts = true -> full (TProd id tok (nonempty b ts)) = true.
Proof. intros H. destruct ts as [|x ts]; [reflexivity|]. cbn in *. exact H. Qed.
Lemma row_nonempty p0 ts p b : row p0 ts p -> (ts = [] -> b = p) -> row p0 (nonempty b ts) p.
Proof.
  intros H Hb. destruct ts as [|x ts]; [|exact H]. rewrite (Hb eq_refl). unfold row in *. cbn in *. apply in_a_row_nil in H. subst.
  repeat constructor.
Qed.

(** ** Running the handler *)
Section Run.
Variable cap : nat.
Hypothesis Hcap : 4 <= cap.
Variable len : nat.
Variable infos : nat -> info.
Variable root : nat.
Notation on := (on cap len infos root).
Notation on_all := (on_all cap len infos root).
Notation Inv := (Inv cap).

Lemma on_all_app es es' h : on_all (es ++ es') h = match on_all es h with Some h => on_all es' h | None => None end.
Proof. revert h. induction es as [|e es IH]; intros h; cbn; auto. destruct (on e h); auto. Qed.

Lemma erase_inv g st f l : erase_st g st = (f, l) -> erase_gf g = f /\ map (option_map erase_gf) st = l.
Proof. intros H. split; [exact (f_equal fst H)|exact (f_equal snd H)]. Qed.

Lemma token_step t ks g st extra k b e f' :
  Inv t ks g st extra -> spec_token k b e (erase_gf g) = Some f' ->
  exists t' g' st', do_call cap (CToken k b e) (t, ks) = Some (t', ks) /\ Inv t' ks g' st' extra /\
    erase_st g' st' = (f', map (option_map erase_gf) st) /\ t_root t' = t_root t.
Proof.
  intros HI Hs.
  destruct (step cap Hcap (CToken k b e) t ks g st extra (f', map (option_map erase_gf) st) HI) as (t' & ks' & g' & st' & E & HI' & Ex & Hr).
  - cbn [spec_call erase_st]. now rewrite Hs.
  - reflexivity.
  - exists t', g', st'. cbn [do_call] in E |- *. destruct (add_token cap k b e t); [|discriminate]. injection E as <- <-.
    cbn [lost] in HI'. auto.
Qed.

Lemma start_step t ks g st extra p :
  Inv t ks g st extra ->
  exists k t' g' st', do_call cap (CStart p) (t, ks) = Some (t', k :: ks) /\ Inv t' (k :: ks) g' st' extra /\
    erase_st g' st' = (if i_transparent p then (erase_gf g, None :: map (option_map erase_gf) st)
                       else (Frame (Some (i_id p, i_token p)) [], Some (erase_gf g) :: map (option_map erase_gf) st)) /\
    t_root t' = t_root t.
Proof.
  intros HI.
  destruct (step cap Hcap (CStart p) t ks g st extra (if i_transparent p then (erase_gf g, None :: map (option_map erase_gf) st)
                       else (Frame (Some (i_id p, i_token p)) [], Some (erase_gf g) :: map (option_map erase_gf) st)) HI) as (t' & ks' & g' & st' & E & HI' & Ex & Hr).
  - cbn [spec_call erase_st]. now destruct (i_transparent p).
  - reflexivity.
  - cbn [do_call] in E |- *. destruct (start_production cap p t) as [[k t1]|]; [|discriminate]. injection E as <- <-.
    exists k, t1, g', st'. cbn [lost] in HI'. auto.
Qed.

Lemma count_ok t ks g st extra : Inv t ks g st extra -> m_count (t_cur t) = length (f_kids (erase_gf g)).
Proof.
  intros [_ (d & base & HT & _) _ _]. destruct (T_depth _ _ _ _ _ _ _ HT) as (_ & _ & H & _).
  unfold erase_gf. cbn [f_kids]. now rewrite map_length.
Qed.

Lemma pop_step c t k ks g st extra x' :
  (c = CFinish \/ c = CCancel) ->
  Inv t (k :: ks) g st extra -> spec_call c (erase_st g st) = Some x' ->
  exists t' g' st', do_call cap c (t, k :: ks) = Some (t', ks) /\ Inv t' ks g' st' (lost c (erase_st g st) + extra) /\
    erase_st g' st' = x' /\ t_root t' = t_root t.
Proof.
  intros Hc HI Hs.
  destruct (step cap Hcap c t (k :: ks) g st extra x' HI Hs) as (t' & ks' & g' & st' & E & HI' & Ex & Hr).
  - destruct Hc as [-> | ->]; reflexivity.
  - exists t', g', st'. destruct Hc as [-> | ->]; cbn [do_call] in E |- *.
    + destruct (finish_production k t); [|discriminate]. injection E as <- <-. auto.
    + destruct (cancel_production cap k t); [|discriminate]. injection E as <- <-. auto.
Qed.

Lemma run_debug es : debug es -> one_grammar es = true ->
  forall t ks g st extra d tr bs, Inv t ks g st extra -> 0 < d ->
  exists t' g' st',
    on_all es (Handler d tr (Some (t, ks)) bs) = Some (Handler d tr (Some (t', ks)) bs) /\
    Inv t' ks g' st' extra /\ erase_st g' st' = erase_st g st /\ t_root t' = t_root t /\
    grows infos (f_kids (erase_gf g)) es (f_kids (erase_gf g)) 0.
Proof.
  intros H. induction H as [|b e es H IH|a x es es1 H IH H1 IH1]; intros Hg t ks g st extra d tr bs HI Hd0.
  - exists t, g, st. split; [reflexivity|]. split; [exact HI|]. split; [reflexivity|]. split; [reflexivity|constructor].
  - destruct (IH Hg t ks g st extra d tr bs HI Hd0) as (t2 & g2 & st2 & E2 & HI2 & Ex2 & Hr2 & Hgr).
    exists t2, g2, st2. split; [exact E2|]. repeat (split; [assumption|]). constructor; [exact I|exact Hgr].
  - cbn [one_grammar forallb] in Hg. rewrite forallb_app in Hg. cbn [forallb] in Hg. rewrite !andb_true_iff in Hg. destruct Hg as (_ & Hg1 & _ & Hg2).
    destruct (start_step t ks g st extra (infos a) HI) as (k & t1 & g1 & st1 & E1 & HI1 & Ex1 & Hr1).
    destruct (IH Hg1 t1 (k :: ks) g1 st1 extra (S d) tr (x :: bs) HI1 ltac:(lia)) as (t2 & g2 & st2 & E2 & HI2 & Ex2 & Hr2 & Hgr).
    assert (Hs3 : spec_call CCancel (erase_st g2 st2) = Some (erase_st g st)).
    { rewrite Ex2. rewrite Ex1. destruct (i_transparent (infos a)); reflexivity. }
    destruct (pop_step CCancel t2 k ks g2 st2 extra _ (or_intror eq_refl) HI2 Hs3) as (t3 & g3 & st3 & E3 & HI3 & Ex3 & Hr3).
    assert (Hl : lost CCancel (erase_st g2 st2) = 0) by (rewrite Ex2, Ex1; destruct (i_transparent (infos a)); reflexivity).
    rewrite Hl in HI3. cbn [Nat.add] in HI3.
    apply erase_inv in Ex3. destruct Ex3 as [Ef3 Es3].
    destruct (token_step t3 ks g3 st3 extra KError x x (erase_gf g) HI3) as (t4 & g4 & st4 & E4 & HI4 & Ex4 & Hr4).
    { rewrite Ef3. apply spec_token_empty. }
    rewrite Es3 in Ex4.
    destruct (IH1 Hg2 t4 ks g4 st4 extra d tr bs HI4 Hd0) as (t5 & g5 & st5 & E5 & HI5 & Ex5 & Hr5 & Hgr5).
    exists t5, g5, st5. split.
    { cbn [PtActModel.on_all]. unfold PtActModel.on at 1. cbn [h_depth h_tree h_begins h_build].
      replace (0 <? d) with true by (symmetry; apply Nat.ltb_lt; exact Hd0).
      unfold calls. cbn [h_build do_calls]. rewrite E1. rewrite on_all_app, E2. cbn [PtActModel.on_all].
      unfold PtActModel.on at 1. cbn [h_depth h_tree h_begins h_build]. replace (0 <? d) with true by (symmetry; apply Nat.ltb_lt; exact Hd0).
      unfold calls. cbn [h_build do_calls]. rewrite E3, E4. exact E5. }
    split; [exact HI5|]. split; [rewrite Ex5; exact Ex4|]. split; [congruence|].
    apply erase_inv in Ex4. destruct Ex4 as [Ef4 _]. rewrite Ef4 in Hgr5.
    destruct (i_transparent (infos a)) eqn:Et; apply erase_inv in Ex1; destruct Ex1 as [Ef1 _]; rewrite Ef1 in Hgr.
    + eapply (grow_cancel_transparent _ _ _ _ _ _ _ 0 _ _ 0); [exact Et|exact Hgr|]. now rewrite with_token_empty.
    + eapply (grow_cancel _ _ _ _ _ _ [] 0 _ _ 0); [exact Et|exact Hgr|]. now rewrite with_token_empty.
Qed.

Theorem run_segment p es q : segment p es q -> one_grammar es = true ->
  forall t ks g st extra d tr bs, Inv t ks g st extra -> 0 < d -> ts_ok p (f_kids (erase_gf g)) ->
  exists t' g' st' n ts',
    on_all es (Handler d tr (Some (t, ks)) bs) = Some (Handler d tr (Some (t', ks)) bs) /\
    Inv t' ks g' st' (n + extra) /\
    erase_st g' st' = (Frame (f_prod (erase_gf g)) ts', map (option_map erase_gf) st) /\
    t_root t' = t_root t /\
    grows infos (f_kids (erase_gf g)) es ts' n /\ ts_ok q ts' /\
    (fulls (f_kids (erase_gf g)) = true -> fulls ts' = true) /\
    (harmless infos es [] = true -> forall p0, row p0 (f_kids (erase_gf g)) p -> row p0 ts' q).
Proof.
  intros H. induction H as [p|p k e es q Hpe H IH|p e es q He H IH|p a es r es1 q H IH H1 IH1|p a es r es1 q H IH H1 IH1|p a x es es1 q Hd H IH H1 IH1] using seg_ind';
    intros Hg t ks g st extra d tr bs HI Hd0 Hok.
  - exists t, g, st, 0, (f_kids (erase_gf g)). cbn [PtActModel.on_all]. split; [reflexivity|]. split; [exact HI|].
    split; [reflexivity|]. split; [reflexivity|]. split; [constructor|]. auto.
  - (* token *)
    destruct (token_step t ks g st extra k p e _ HI (spec_with_token k p e p _ Hok Hpe Hpe)) as (t1 & g1 & st1 & E1 & HI1 & Ex1 & Hr1).
    apply erase_inv in Ex1. destruct Ex1 as [Ef1 Es1].
    destruct (IH Hg t1 ks g1 st1 extra d tr bs HI1 Hd0) as (t2 & g2 & st2 & n2 & ts2 & E2 & HI2 & Ex2 & Hr2 & Hgr & Hts & Hfu & Hrow).
    { rewrite Ef1. cbn [f_kids]. eapply with_token_ok; eauto. }
    rewrite Ef1, Es1 in *. cbn [f_prod f_kids] in *.
    exists t2, g2, st2, n2, ts2. cbn [PtActModel.on_all PtActModel.on h_build h_depth h_tree h_begins].
    unfold calls. cbn [h_build do_calls]. rewrite E1. split; [exact E2|]. split; [exact HI2|]. split; [exact Ex2|]. split; [congruence|].
    split; [constructor; exact Hgr|]. split; [exact Hts|]. split.
    + intros Hf. apply Hfu. now apply fulls_token.
    + intros Hh p0 Hr. apply Hrow; auto. now apply row_token.
  - (* other *)
    cbn [one_grammar forallb] in Hg. apply andb_true_iff in Hg. destruct Hg as [Hg1 Hg2].
    destruct (IH Hg2 t ks g st extra d tr bs HI Hd0 Hok) as (t2 & g2 & st2 & n2 & ts2 & E2 & HI2 & Ex2 & Hr2 & Hgr & Hts & Hfu & Hrow).
    exists t2, g2, st2, n2, ts2. cbn [PtActModel.on_all]. split; [destruct e; try discriminate; try destruct He; exact E2|].
    repeat (split; [assumption|]). split; [now constructor|]. split; [exact Hts|]. split; [exact Hfu|].
    intros Hh. apply Hrow. destruct e; try destruct He; exact Hh.
  - (* finished production *)
    cbn [one_grammar forallb] in Hg. rewrite forallb_app in Hg. cbn [forallb] in Hg. rewrite !andb_true_iff in Hg. destruct Hg as (_ & Hg1 & _ & Hg2).
    pose proof (seg_le _ _ _ H) as Hpr.
    destruct (start_step t ks g st extra (infos a) HI) as (k & t1 & g1 & st1 & E1 & HI1 & Ex1 & Hr1).
    assert (Hok1 : ts_ok p (f_kids (erase_gf g1))).
    { destruct (i_transparent (infos a)); apply erase_inv in Ex1; destruct Ex1 as [Ef1 _]; rewrite Ef1; [exact Hok|intros ? ? ? []]. }
    destruct (IH Hg1 t1 (k :: ks) g1 st1 extra (S d) tr (p :: bs) HI1 ltac:(lia) Hok1) as (t2 & g2 & st2 & n2 & ts2 & E2 & HI2 & Ex2 & Hr2 & Hgr & Hts & Hfu & Hrow).
    (* position token *)
    assert (Hpos : exists t3 g3 st3, do_calls cap (if m_count (t_cur t2) =? 0 then [CToken KPosition p p] else []) (t2, k :: ks) = Some (t3, k :: ks) /\
       Inv t3 (k :: ks) g3 st3 (n2 + extra) /\ erase_st g3 st3 = (Frame (f_prod (erase_gf g1)) (nonempty p ts2), map (option_map erase_gf) st1) /\ t_root t3 = t_root t2).
    { pose proof Ex2 as Ex2'. apply erase_inv in Ex2'. destruct Ex2' as [Ef2 Es2].
      rewrite (count_ok _ _ _ _ _ HI2), Ef2. cbn [f_kids]. destruct ts2 as [|y ts2]; cbn [length Nat.eqb].
      - destruct (token_step t2 (k :: ks) g2 st2 (n2 + extra) KPosition p p (Frame (f_prod (erase_gf g1)) [TTok KPosition p p]) HI2) as (t3 & g3 & st3 & E3 & HI3 & Ex3 & Hr3).
        { rewrite Ef2. unfold spec_token. cbn. now rewrite Nat.leb_refl. }
        exists t3, g3, st3. cbn [do_calls]. rewrite E3. rewrite Es2 in Ex3. auto.
      - exists t2, g2, st2. auto. }
    destruct Hpos as (t3 & g3 & st3 & E3 & HI3 & Ex3 & Hr3).
    set (f := erase_gf g) in *.
    set (x' := (if i_transparent (infos a) then (Frame (f_prod f) (nonempty p ts2), map (option_map erase_gf) st)
                else (add [TProd (i_id (infos a)) (i_token (infos a)) (nonempty p ts2)] f, map (option_map erase_gf) st))).
    assert (Hs4 : spec_call CFinish (erase_st g3 st3) = Some x').
    { rewrite Ex3. unfold x'. destruct (i_transparent (infos a)); apply erase_inv in Ex1; destruct Ex1 as [Ef1 Es1]; rewrite Ef1, Es1; reflexivity. }
    destruct (pop_step CFinish t3 k ks g3 st3 (n2 + extra) x' (or_introl eq_refl) HI3 Hs4) as (t4 & g4 & st4 & E4 & HI4 & Ex4 & Hr4).
    change (lost CFinish (erase_st g3 st3)) with 0 in HI4. cbn [Nat.add] in HI4.
    set (ts4 := if i_transparent (infos a) then nonempty p ts2 else f_kids f ++ [TProd (i_id (infos a)) (i_token (infos a)) (nonempty p ts2)]).
    assert (Ex4' : erase_gf g4 = Frame (f_prod f) ts4 /\ map (option_map erase_gf) st4 = map (option_map erase_gf) st).
    { unfold x' in Ex4. unfold ts4. destruct (i_transparent (infos a)); apply erase_inv in Ex4; exact Ex4. }
    destruct Ex4' as [Ef4 Es4].
    assert (Hok4 : ts_ok r ts4).
    { unfold ts4. destruct (i_transparent (infos a)).
      - destruct ts2; [|exact Hts]. intros k1 b1 e1 [[= <- <- <-]|[]]. lia.
      - intros k1 b1 e1 Hi. apply in_app_or in Hi. destruct Hi as [Hi|[Hi|[]]]; [|discriminate]. specialize (Hok _ _ _ Hi). lia. }
    destruct (IH1 Hg2 t4 ks g4 st4 (n2 + extra) d tr bs HI4 Hd0) as (t5 & g5 & st5 & n5 & ts5 & E5 & HI5 & Ex5 & Hr5 & Hgr5 & Hts5 & Hfu5 & Hrow5).
    { rewrite Ef4. exact Hok4. }
    rewrite Ef4 in Hgr5, Hfu5, Hrow5, Ex5. rewrite Es4 in Ex5. cbn [f_kids f_prod] in *.
    replace (n5 + (n2 + extra)) with ((n2 + n5) + extra) in HI5 by lia.
    exists t5, g5, st5, (n2 + n5), ts5. split.
    { cbn [PtActModel.on_all]. unfold PtActModel.on at 1. cbn [h_depth h_tree h_begins h_build].
      replace (0 <? d) with true by (symmetry; apply Nat.ltb_lt; exact Hd0).
      unfold calls. cbn [h_build do_calls]. rewrite E1. rewrite on_all_app, E2. cbn [PtActModel.on_all].
      unfold PtActModel.on at 1. cbn [h_depth h_tree h_begins h_build]. replace (0 <? d) with true by (symmetry; apply Nat.ltb_lt; exact Hd0).
      unfold calls. cbn [h_build].
      destruct (m_count (t_cur t2) =? 0); cbn [do_calls] in *.
      - destruct (do_call cap (CToken KPosition p p) (t2, k :: ks)) as [x|]; [|discriminate]. injection E3 as ->. rewrite E4. exact E5.
      - injection E3 as ->. rewrite E4. exact E5. }
    split; [exact HI5|]. split; [exact Ex5|]. split; [congruence|].
    assert (Hf1 : f_kids (erase_gf g1) = if i_transparent (infos a) then f_kids f else []).
    { destruct (i_transparent (infos a)); apply erase_inv in Ex1; destruct Ex1 as [Ef1 _]; now rewrite Ef1. }
    split.
    { destruct (i_transparent (infos a)) eqn:Et.
      - eapply grow_finish_transparent; [exact Et| |exact Hgr5]. now rewrite Hf1 in Hgr.
      - eapply grow_finish; [exact Et| |exact Hgr5]. now rewrite Hf1 in Hgr. }
    split; [exact Hts5|]. split.
    { intros Hf. apply Hfu5. unfold ts4. rewrite Hf1 in Hfu. destruct (i_transparent (infos a)).
      - apply fulls_nonempty. auto.
      - unfold fulls in *. rewrite forallb_app. rewrite Hf. cbn [forallb]. rewrite full_node; auto. }
    { intros Hh p0 Hr. cbn [harmless] in Hh. rewrite (harmless_app _ _ _ _ H _ _ []) in Hh. cbn [harmless tl] in Hh. apply andb_true_iff in Hh. destruct Hh as [Hh1 Hh2].
      apply Hrow5; [exact Hh2|]. specialize (Hrow Hh1). rewrite Hf1 in Hrow. unfold ts4. destruct (i_transparent (infos a)).
      - specialize (Hrow p0 Hr). apply row_nonempty; [exact Hrow|]. intros ->.
        assert (p0 = r) by (apply in_a_row_nil; exact Hrow). pose proof (in_a_row_le _ _ _ Hr). lia.
      - specialize (Hrow p ltac:(constructor)). unfold row in *. rewrite flat_map_app. eapply in_a_row_join; [exact Hr|]. cbn [flat_map leaves]. rewrite app_nil_r.
        apply row_nonempty; [exact Hrow|]. intros ->. apply in_a_row_nil. exact Hrow. }
  - (* cancelled production *)
    cbn [one_grammar forallb] in Hg. rewrite forallb_app in Hg. cbn [forallb] in Hg. rewrite !andb_true_iff in Hg. destruct Hg as (_ & Hg1 & _ & Hg2).
    pose proof (seg_le _ _ _ H) as Hpr.
    destruct (start_step t ks g st extra (infos a) HI) as (k & t1 & g1 & st1 & E1 & HI1 & Ex1 & Hr1).
    assert (Hok1 : ts_ok p (f_kids (erase_gf g1))).
    { destruct (i_transparent (infos a)); apply erase_inv in Ex1; destruct Ex1 as [Ef1 _]; rewrite Ef1; [exact Hok|intros ? ? ? []]. }
    destruct (IH Hg1 t1 (k :: ks) g1 st1 extra (S d) tr (p :: bs) HI1 ltac:(lia) Hok1) as (t2 & g2 & st2 & n2 & ts2 & E2 & HI2 & Ex2 & Hr2 & Hgr & Hts & Hfu & Hrow).
    set (f := erase_gf g) in *.
    set (ts3 := if i_transparent (infos a) then ts2 else f_kids f).
    assert (Hs3 : spec_call CCancel (erase_st g2 st2) = Some (Frame (f_prod f) ts3, map (option_map erase_gf) st)).
    { rewrite Ex2. unfold ts3. destruct (i_transparent (infos a)); apply erase_inv in Ex1; destruct Ex1 as [Ef1 Es1]; rewrite Ef1, Es1; [reflexivity|].
      now destruct f. }
    destruct (pop_step CCancel t2 k ks g2 st2 (n2 + extra) _ (or_intror eq_refl) HI2 Hs3) as (t3 & g3 & st3 & E3 & HI3 & Ex3 & Hr3).
    set (lo := if i_transparent (infos a) then 0 else below ts2).
    assert (Hlo : lost CCancel (erase_st g2 st2) = lo).
    { rewrite Ex2. unfold lo. destruct (i_transparent (infos a)); apply erase_inv in Ex1; destruct Ex1 as [Ef1 Es1]; rewrite Ef1, Es1; reflexivity. }
    rewrite Hlo in HI3. set (x3 := lo + (n2 + extra)) in *.
    apply erase_inv in Ex3. destruct Ex3 as [Ef3 Es3].
    assert (Hok3 : ts_ok r ts3).
    { unfold ts3. destruct (i_transparent (infos a)); [exact Hts|eapply ts_ok_mono; eauto]. }
    destruct (token_step t3 ks g3 st3 x3 KError p r (Frame (f_prod f) (with_token KError p r ts3)) HI3) as (t4 & g4 & st4 & E4 & HI4 & Ex4 & Hr4).
    { rewrite Ef3. apply (spec_with_token KError p r r (Frame (f_prod f) ts3)); auto. }
    apply erase_inv in Ex4. destruct Ex4 as [Ef4 Es4]. rewrite Es3 in Es4.
    destruct (IH1 Hg2 t4 ks g4 st4 x3 d tr bs HI4 Hd0) as (t5 & g5 & st5 & n5 & ts5 & E5 & HI5 & Ex5 & Hr5 & Hgr5 & Hts5 & Hfu5 & Hrow5).
    { rewrite Ef4. cbn [f_kids]. eapply with_token_ok; eauto. }
    rewrite Ef4 in Hgr5, Hfu5, Hrow5, Ex5. rewrite Es4 in Ex5. cbn [f_kids f_prod] in *.
    replace (n5 + x3) with ((lo + n2 + n5) + extra) in HI5 by (unfold x3; lia).
    exists t5, g5, st5, (lo + n2 + n5), ts5. split.
    { cbn [PtActModel.on_all]. unfold PtActModel.on at 1. cbn [h_depth h_tree h_begins h_build].
      replace (0 <? d) with true by (symmetry; apply Nat.ltb_lt; exact Hd0).
      unfold calls. cbn [h_build do_calls]. rewrite E1. rewrite on_all_app, E2. cbn [PtActModel.on_all].
      unfold PtActModel.on at 1. cbn [h_depth h_tree h_begins h_build]. replace (0 <? d) with true by (symmetry; apply Nat.ltb_lt; exact Hd0).
      unfold calls. cbn [h_build do_calls]. rewrite E3, E4. exact E5. }
    split; [exact HI5|]. split; [exact Ex5|]. split; [congruence|].
    assert (Hf1 : f_kids (erase_gf g1) = if i_transparent (infos a) then f_kids f else []).
    { destruct (i_transparent (infos a)); apply erase_inv in Ex1; destruct Ex1 as [Ef1 _]; now rewrite Ef1. }
    split.
    { unfold lo. unfold ts3 in Hgr5. destruct (i_transparent (infos a)) eqn:Et.
      - eapply grow_cancel_transparent; [exact Et| |exact Hgr5]. now rewrite Hf1 in Hgr.
      - eapply grow_cancel; [exact Et| |exact Hgr5]. rewrite Hf1 in Hgr. exact Hgr. }
    split; [exact Hts5|]. split.
    { intros Hf. apply Hfu5, fulls_token. unfold ts3. rewrite Hf1 in Hfu. destruct (i_transparent (infos a)); auto. }
    { intros Hh p0 Hr. cbn [harmless] in Hh. rewrite (harmless_app _ _ _ _ H _ _ []) in Hh. cbn [harmless hd tl] in Hh.
      rewrite !andb_true_iff in Hh. destruct Hh as (Hh1 & Hh3 & Hh2).
      apply Hrow5; [exact Hh2|]. specialize (Hrow Hh1). rewrite Hf1 in Hrow. unfold ts3. destruct (i_transparent (infos a)).
      - cbn in Hh3. apply Nat.eqb_eq in Hh3. subst r. rewrite with_token_empty. exact (Hrow p0 Hr).
      - apply row_token; auto. }
  - (* a production of an untaken branch *)
    cbn [one_grammar forallb] in Hg. rewrite forallb_app in Hg. cbn [forallb] in Hg. rewrite !andb_true_iff in Hg. destruct Hg as (_ & Hg1 & _ & Hg2).
    destruct (start_step t ks g st extra (infos a) HI) as (k & t1 & g1 & st1 & E1 & HI1 & Ex1 & Hr1).
    set (f := erase_gf g) in *.
    destruct (run_debug es Hd Hg1 t1 (k :: ks) g1 st1 extra (S d) tr (x :: bs) HI1 ltac:(lia)) as (t2 & g2 & st2 & E2 & HI2 & Ex2 & Hr2 & Hgr).
    assert (Hs3 : spec_call CCancel (erase_st g2 st2) = Some (f, map (option_map erase_gf) st)).
    { rewrite Ex2. rewrite Ex1. destruct (i_transparent (infos a)); reflexivity. }
    destruct (pop_step CCancel t2 k ks g2 st2 extra _ (or_intror eq_refl) HI2 Hs3) as (t3 & g3 & st3 & E3 & HI3 & Ex3 & Hr3).
    assert (Hl : lost CCancel (erase_st g2 st2) = 0) by (rewrite Ex2, Ex1; destruct (i_transparent (infos a)); reflexivity).
    rewrite Hl in HI3. cbn [Nat.add] in HI3.
    apply erase_inv in Ex3. destruct Ex3 as [Ef3 Es3].
    destruct (token_step t3 ks g3 st3 extra KError x x f HI3) as (t4 & g4 & st4 & E4 & HI4 & Ex4 & Hr4).
    { rewrite Ef3. apply spec_token_empty. }
    apply erase_inv in Ex4. destruct Ex4 as [Ef4 Es4]. rewrite Es3 in Es4.
    destruct (IH1 Hg2 t4 ks g4 st4 extra d tr bs HI4 Hd0) as (t5 & g5 & st5 & n5 & ts5 & E5 & HI5 & Ex5 & Hr5 & Hgr5 & Hts5 & Hfu5 & Hrow5).
    { rewrite Ef4. exact Hok. }
    rewrite Ef4 in Hgr5, Hfu5, Hrow5, Ex5. rewrite Es4 in Ex5.
    exists t5, g5, st5, n5, ts5. split.
    { cbn [PtActModel.on_all]. unfold PtActModel.on at 1. cbn [h_depth h_tree h_begins h_build].
      replace (0 <? d) with true by (symmetry; apply Nat.ltb_lt; exact Hd0).
      unfold calls. cbn [h_build do_calls]. rewrite E1. rewrite on_all_app, E2. cbn [PtActModel.on_all].
      unfold PtActModel.on at 1. cbn [h_depth h_tree h_begins h_build]. replace (0 <? d) with true by (symmetry; apply Nat.ltb_lt; exact Hd0).
      unfold calls. cbn [h_build do_calls]. rewrite E3, E4. exact E5. }
    split; [exact HI5|]. split; [exact Ex5|]. split; [congruence|].
    split.
    { destruct (i_transparent (infos a)) eqn:Et; apply erase_inv in Ex1; destruct Ex1 as [Ef1 _]; rewrite Ef1 in Hgr.
      - eapply (grow_cancel_transparent _ _ _ _ _ _ _ 0); [exact Et|exact Hgr|]. now rewrite with_token_empty.
      - eapply (grow_cancel _ _ _ _ _ _ [] 0); [exact Et|exact Hgr|]. now rewrite with_token_empty. }
    split; [exact Hts5|]. split; [exact Hfu5|].
    { intros Hh p0 Hr. cbn [harmless] in Hh. rewrite (harmless_app _ _ _ _ H _ _ []) in Hh. cbn [harmless hd tl] in Hh.
      rewrite !andb_true_iff in Hh. destruct Hh as (Hh1 & Hh3 & Hh2). now apply Hrow5. }
Qed.
End Run.
