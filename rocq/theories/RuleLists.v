(** Laws of the repeating rules: lists, repetitions, combinations, flags. *)
From Verif Require Import Prelude RuleModel RuleSpec RuleDen RuleGood RuleMono RuleSem RuleLaws.
Close Scope N_scope.

(** The values of one item, for the sink: it is only called if there are any. *)
Definition one (vs : list val) : list (list val) := match vs with [] => [] | _ => [vs] end.

Lemma push_one vs acc : push vs acc = acc ++ one vs.
Proof. destruct vs; cbn; auto. now rewrite app_nil_r. Qed.

Section Lists.
Variable inp : list N.
Variable prods : nat -> production.
Notation eng := (eng inp prods).
Notation ev := (ev inp prods).
Notation Runs := (Runs inp prods).
Notation Tries := (Tries inp prods).
Notation Cancels := (Cancels inp prods).
Notation Declines := (Declines inp prods).
Notation Finishes := (Finishes inp prods).
Notation Takes := (Takes inp prods).
Notation Matches := (Matches inp prods).
Notation is_branch := (is_branch prods).

(** ** Lists *)
(** One more item: a branch item is only parsed if its condition matches. *)
Definition Item c item s o s' : Prop :=
  if is_branch item then Takes c item s o s' else Runs c item s o s'.
Definition NoItem item s es : Prop := is_branch item = true /\ Declines item s es.

(** What follows the first item of list(item, sep); the values are those of the items and
    separators. *)
Inductive More (c : cx) (item : rule) : option (rule * sepk) -> st -> list (list val) -> st -> Prop :=
| more_end s es : NoItem item s es -> More c item None s [] (emits es s)
| more_item s v s1 l s' : Item c item s (OTrue v) s1 -> More c item None s1 l s' ->
    More c item None s (one v ++ l) s'
| more_sep_end sr k s es : Declines sr s es -> More c item (Some (sr, k)) s [] (emits es s)
| more_sep_item sr k s w s1 v s2 l s' : Takes c sr s (OTrue w) s1 -> Item c item s1 (OTrue v) s2 ->
    More c item (Some (sr, k)) s2 l s' -> More c item (Some (sr, k)) s (one w ++ one v ++ l) s'
| more_sep_trailing sr k s w s1 es : Takes c sr s (OTrue w) s1 -> NoItem item s1 es ->
    More c item (Some (sr, k)) s (one w) (report_trailing k (pos s) (pos s1) (emits es s1)).

(** ... and how it fails: a separator or item whose parsing fails. *)
Inductive MoreFails (c : cx) (item : rule) : option (rule * sepk) -> st -> st -> Prop :=
| mf_item s s' : Item c item s OFalse s' -> MoreFails c item None s s'
| mf_more s v s1 s' : Item c item s (OTrue v) s1 -> MoreFails c item None s1 s' -> MoreFails c item None s s'
| mf_sep sr k s s' : Takes c sr s OFalse s' -> MoreFails c item (Some (sr, k)) s s'
| mf_sep_item sr k s w s1 s' : Takes c sr s (OTrue w) s1 -> Item c item s1 OFalse s' ->
    MoreFails c item (Some (sr, k)) s s'
| mf_sep_more sr k s w s1 v s2 s' : Takes c sr s (OTrue w) s1 -> Item c item s1 (OTrue v) s2 ->
    MoreFails c item (Some (sr, k)) s2 s' -> MoreFails c item (Some (sr, k)) s s'.

Ltac fuel := 
  repeat match goal with
  | H : RuleSem.Runs _ _ _ _ _ _ _ |- _ => let m := fresh "m" in destruct H as [m H]
  | H : RuleSem.Finishes _ _ _ _ _ _ _ _ |- _ => let m := fresh "m" in destruct H as [m H]
  | H : RuleSem.Takes _ _ _ _ _ _ _ |- _ => let b := fresh "b" in let H' := fresh in destruct H as (b & H' & H)
  | H : RuleSem.Declines _ _ _ _ _ |- _ => let b := fresh "b" in let H' := fresh in destruct H as (b & H' & H)
  | H : RuleSem.Tries _ _ _ _ _ _ |- _ => let N := fresh "N" in destruct H as [N H]
  | H : RuleSem.Cancels _ _ _ _ _ |- _ => let N := fresh "N" in destruct H as [N H]
  | H : RuleSem.Matches _ _ _ _ _ _ |- _ => let N := fresh "N" in destruct H as [N H]
  | H : RuleSem.ev _ _ _ _ |- _ => let N := fresh "N" in destruct H as [N H]
  end.

(** All bounds on the fuel become one. *)
Lemma le_sum_l N M n : N + M <= n -> N <= n.
Proof. lia. Qed.
Lemma le_sum_r N M n : N + M <= n -> M <= n.
Proof. lia. Qed.

Ltac lift_bound H K f := let H' := fresh "H" in pose proof (fun n (h : K <= n) => H n (f n h)) as H'; cbn beta in H'; clear H.
Ltac unify_bounds :=
  repeat match goal with
  | H1 : forall n, ?N <= n -> _ = _, H2 : forall n, ?M <= n -> _ = _ |- _ =>
      tryif constr_eq N M then fail else
      let K := fresh "K" in let HK := fresh "HK" in let HM := fresh "HM" in
      pose proof (le_sum_l N M) as HK; pose proof (le_sum_r N M) as HM;
      generalize dependent (N + M); intros K HK HM;
      repeat match goal with
      | H : forall n, N <= n -> _ = _ |- _ => lift_bound H K HK
      | H : forall n, M <= n -> _ = _ |- _ => lift_bound H K HM
      end; clear HK HM
  end.
Ltac enough_fuel :=
  fuel; unify_bounds;
  match goal with H : forall n, ?N <= n -> _ = _ |- _ => exists N end;
  let n := fresh "n" in let Hn := fresh "Hn" in intros n Hn;
  repeat match goal with H : forall n, _ <= n -> _ = _ |- _ => specialize (H n Hn) end.
Ltac same_pos :=
  repeat match goal with
  | |- context [pos (emits ?e ?s)] => change (pos (emits e s)) with (pos s) in *
  | |- context [vars (emits ?e ?s)] => change (vars (emits e s)) with (vars s) in *
  | H : context [pos (emits ?e ?s)] |- _ => change (pos (emits e s)) with (pos s) in *
  | H : context [vars (emits ?e ?s)] |- _ => change (vars (emits e s)) with (vars s) in *
  end.
Ltac go :=
  repeat (cbn [lst_step lstt_step delim orelse app k_fn final]; unfold lst_item, cancel_then;
    rewrite ?push_one, <- ?app_assoc in *;
    same_pos;
    match goal with
    | H : is_branch _ = _ |- _ => rewrite H
    | H : e_try _ _ _ _ = _ |- _ => rewrite H
    | H : e_cancel _ _ _ = _ |- _ => rewrite H
    | H : e_finish _ _ _ _ _ _ _ = _ |- _ => rewrite H
    | H : e_parse _ _ _ _ _ _ = _ |- _ => rewrite H
    | H : e_lst _ _ _ _ _ _ = _ |- _ => rewrite H
    | H : e_lstt _ _ _ _ _ _ _ _ _ _ = _ |- _ => rewrite H
    end); cbn [delim orelse app]; rewrite ?push_one, ?app_nil_r; try reflexivity.

Lemma lst_fwd c item sep s l s' : More c item sep s l s' ->
  forall acc, ev (fun E => e_lst E c item sep s acc) (Res (OTrue [VSink (acc ++ l)]) s' 0).
Proof.
  induction 1 as [s es [Hb H]|s v s1 l s' H1 H2 IH|sr k s es H|sr k s w s1 v s2 l s' H1 H2 H3 IH
                 |sr k s w s1 es H1 [Hb H2]]; intros acc; apply ev_shift; cbn [step e_lst].
  - enough_fuel. go.
  - specialize (IH (push v acc)). unfold Item in H1. destruct (is_branch item) eqn:Hb; enough_fuel; go.
  - enough_fuel. go.
  - specialize (IH (push v (push w acc))). unfold Item in H2. destruct (is_branch item) eqn:Hb; enough_fuel; go.
  - enough_fuel. go.
Qed.

Lemma lst_fwd_fails c item sep s s' : MoreFails c item sep s s' ->
  forall acc, ev (fun E => e_lst E c item sep s acc) (Res OFalse s' 0).
Proof.
  induction 1 as [s s' H|s v s1 s' H1 H2 IH|sr k s s' H|sr k s w s1 s' H1 H2|sr k s w s1 v s2 s' H1 H2 H3 IH];
    intros acc; apply ev_shift; cbn [step e_lst].
  - unfold Item in H. destruct (is_branch item) eqn:Hb; enough_fuel; go.
  - specialize (IH (push v acc)). unfold Item in H1. destruct (is_branch item) eqn:Hb; enough_fuel; go.
  - enough_fuel. go.
  - unfold Item in H2. destruct (is_branch item) eqn:Hb; enough_fuel; go.
  - specialize (IH (push v (push w acc))). unfold Item in H2. destruct (is_branch item) eqn:Hb; enough_fuel; go.
Qed.

(** The converse, from a result with some fuel. *)
Lemma lst_item_inv n c item sep sb s acc o s' m :
  lst_item prods (eng n) c item sep sb s acc = Res o s' m ->
  (exists v s1, Item c item s (OTrue v) s1 /\ e_lst (eng n) c item sep s1 (push v acc) = Res o s' m) \/
  (Item c item s OFalse s' /\ o = OFalse) \/
  (exists es, NoItem item s es /\ o = OTrue [VSink acc] /\
     s' = match sep with Some (_, k) => report_trailing k sb (pos s) (emits es s) | None => emits es s end).
Proof.
  unfold lst_item, Item, NoItem. destruct (is_branch item) eqn:Hb.
  - destruct (e_try (eng n) item (vars s) (pos s)) as [[|] b| |] eqn:Ht; try discriminate.
    + apply try_Tries in Ht. destruct (e_finish (eng n) c item b final s []) as [[] s1 m1| |] eqn:Hf; try discriminate;
        cbn [delim]; apply finish_Finishes in Hf.
      * intros [= <- <- _]. right. left. split; auto. exists b. auto.
      * intros H. left. exists vs, s1. split; auto. exists b. auto.
    + apply try_Tries in Ht. unfold cancel_then. destruct (e_cancel (eng n) item b) as [es|] eqn:Hc; [|discriminate].
      apply cancel_Cancels in Hc. intros [= <- <- _]. right. right. exists es. repeat split; auto. exists b. auto.
  - destruct (e_parse (eng n) c item final s []) as [[] s1 m1| |] eqn:Hf; try discriminate;
      cbn [delim]; apply parse_Runs in Hf.
    + intros [= <- <- _]. auto.
    + intros H. left. eauto.
Qed.

Lemma lst_bwd c item sep : forall n s acc o s' m, e_lst (eng n) c item sep s acc = Res o s' m ->
  (exists l, More c item sep s l s' /\ o = OTrue [VSink (acc ++ l)]) \/
  (MoreFails c item sep s s' /\ o = OFalse).
Proof.
  induction n as [|n IH]; intros s acc o s' m; [discriminate|]. cbn [RuleModel.eng step e_lst].
  destruct sep as [[sr k]|]; cbn [lst_step].
  - destruct (e_try (eng n) sr (vars s) (pos s)) as [[|] b| |] eqn:Ht; try discriminate.
    + apply try_Tries in Ht. destruct (e_finish (eng n) c sr b final s []) as [[] s1 m1| |] eqn:Hf; try discriminate;
        cbn [delim]; apply finish_Finishes in Hf.
      * intros [= <- <- _]. right. split; auto. apply mf_sep. exists b. auto.
      * intros H. apply lst_item_inv in H.
        destruct H as [(v & s2 & Hi & H)|[[Hi ->]|(es & Hi & -> & ->)]].
        -- apply IH in H. destruct H as [(l & H & ->)|[H ->]].
           ++ left. exists (one vs ++ one v ++ l). rewrite !push_one, <- !app_assoc. split; auto.
              eapply more_sep_item; [exists b; eauto|eauto|eauto].
           ++ right. split; auto. eapply mf_sep_more; [exists b; eauto|eauto|eauto].
        -- right. split; auto. eapply mf_sep_item; [exists b; eauto|eauto].
        -- left. exists (one vs). rewrite push_one. split; auto.
           eapply more_sep_trailing; [exists b; eauto|eauto].
    + apply try_Tries in Ht. unfold cancel_then. destruct (e_cancel (eng n) sr b) as [es|] eqn:Hc; [|discriminate].
      apply cancel_Cancels in Hc. intros [= <- <- _]. left. exists []. rewrite app_nil_r. split; auto.
      apply more_sep_end. exists b. auto.
  - intros H. apply lst_item_inv in H.
    destruct H as [(v & s2 & Hi & H)|[[Hi ->]|(es & Hi & -> & ->)]].
    + apply IH in H. destruct H as [(l & H & ->)|[H ->]].
      * left. exists (one v ++ l). rewrite !push_one, <- !app_assoc. split; auto. eapply more_item; eauto.
      * right. split; auto. eapply mf_more; eauto.
    + right. split; auto. now apply mf_item.
    + left. exists []. rewrite app_nil_r. split; auto. now apply more_end.
Qed.

Lemma list_runs c item sep s vs s' :
  Runs c (RLst item sep) s (OTrue vs) s' <->
  exists v s1 l, Runs c item s (OTrue v) s1 /\ More c item sep s1 l s' /\ vs = [VSink (one v ++ l)].
Proof.
  rewrite Runs_shift. cbn [parse_step]. split.
  - intros [m H]. apply ev_at in H. destruct H as [n H].
    destruct (e_parse (eng n) c item final s []) as [[] s1 m1| |] eqn:Hf; try discriminate.
    cbn [delim] in H.
    destruct (e_lst (eng n) c item sep s1 (push vs0 [])) as [[] s2 m2| |] eqn:Hl; try discriminate.
    cbn in H. injection H as <- <- _. apply parse_Runs in Hf. apply lst_bwd in Hl.
    destruct Hl as [(l & Hl & [= ->])|[_ Hl]]; [|discriminate].
    exists vs0, s1, l. rewrite push_one. auto.
  - intros (v & s1 & l & H & Hm & ->). apply (lst_fwd _ _ _ _ _ _) with (acc := push v []) in Hm.
    rewrite push_one in Hm. cbn [app] in Hm. exists 0. fuel. exists (N + N0). intros n Hn.
    rewrite H by lia. cbn [delim]. rewrite push_one. cbn [app]. rewrite Hm by lia. reflexivity.
Qed.

Lemma list_fails c item sep s s' :
  Runs c (RLst item sep) s OFalse s' <->
  Runs c item s OFalse s' \/
  exists v s1, Runs c item s (OTrue v) s1 /\ MoreFails c item sep s1 s'.
Proof.
  rewrite Runs_shift. cbn [parse_step]. split.
  - intros [m H]. apply ev_at in H. destruct H as [n H].
    destruct (e_parse (eng n) c item final s []) as [[] s1 m1| |] eqn:Hf; try discriminate;
      cbn [delim] in H; apply parse_Runs in Hf.
    + injection H as <- _. auto.
    + destruct (e_lst (eng n) c item sep s1 (push vs [])) as [[] s2 m2| |] eqn:Hl; try discriminate.
      cbn in H. injection H as <- _. apply lst_bwd in Hl.
      destruct Hl as [(l & _ & Hl)|[Hl _]]; [discriminate|]. right. eauto.
  - intros [H|(v & s1 & H & Hm)]; exists 0.
    + fuel. exists N. intros n Hn. now rewrite H by lia.
    + apply lst_fwd_fails with (acc := push v []) in Hm. fuel. exists (N + N0). intros n Hn.
      rewrite H by lia. cbn [delim]. rewrite Hm by lia. reflexivity.
Qed.

(** ** Lists with terminator *)
(** What follows the first item up to the terminator, as long as nothing fails. *)
Inductive TMore (c : cx) (term item : rule) : option (rule * sepk) -> st -> list (list val) -> st -> Prop :=
| tm_end sep s b : Tries term s true b -> TMore c term item sep s [] s
| tm_item s es v s1 l s' : Declines term s es -> Runs c item (emits es s) (OTrue v) s1 ->
    TMore c term item None s1 l s' -> TMore c term item None s (one v ++ l) s'
| tm_sep_item sr k s es w s1 b v s2 l s' : Declines term s es ->
    Runs c sr (emits es s) (OTrue w) s1 -> Tries term s1 false b ->
    Runs c item s1 (OTrue v) s2 -> TMore c term item (Some (sr, k)) s2 l s' ->
    TMore c term item (Some (sr, k)) s (one w ++ one v ++ l) s'
| tm_trailing sr k s es w s1 b : Declines term s es ->
    Runs c sr (emits es s) (OTrue w) s1 -> Tries term s1 true b ->
    TMore c term item (Some (sr, k)) s (one w) (report_trailing k (pos s) (pos s1) s1).

Lemma lstt_fwd c term item lim sep s l s' : TMore c term item sep s l s' ->
  forall acc sp, ev (fun E => e_lstt E c term item sep lim LTerm sp s acc) (Res (OTrue [VSink (acc ++ l)]) s' 0).
Proof.
  assert (Hst : forall sep ls sp s acc x,
     ev (fun E => lstt_step inp prods E c term item sep lim ls sp s acc) x ->
     ev (fun E => e_lstt E c term item sep lim ls sp s acc) x).
  { intros. now apply ev_shift. }
  induction 1 as [sep s b H|s es v s1 l s' H1 H2 H3 IH|sr k s es w s1 b v s2 l s' H1 H2 H3 H4 H5 IH
                 |sr k s es w s1 b H1 H2 H3]; intros acc sp.
  - apply Hst. enough_fuel. go.
  - assert (Hi : ev (fun E => e_lstt E c term item None lim LItem sp (emits es s) acc)
        (Res (OTrue [VSink (acc ++ one v ++ l)]) s' 0)).
    { apply Hst. specialize (IH (push v acc) sp). clear H1. enough_fuel. go. }
    assert (Hs : ev (fun E => e_lstt E c term item None lim LSep sp (emits es s) acc)
        (Res (OTrue [VSink (acc ++ one v ++ l)]) s' 0)).
    { apply Hst. exact Hi. }
    apply Hst. clear IH H2 H3 Hi. enough_fuel. go.
  - specialize (IH (push v (push w acc)) (pos s)).
    assert (Hi : ev (fun E => e_lstt E c term item (Some (sr, k)) lim LItem (pos s) s1 (push w acc))
        (Res (OTrue [VSink (acc ++ one w ++ one v ++ l)]) s' 0)).
    { apply Hst. clear H1 H2 H3. enough_fuel. go. }
    assert (Htr : ev (fun E => e_lstt E c term item (Some (sr, k)) lim LTrail (pos s) s1 (push w acc))
        (Res (OTrue [VSink (acc ++ one w ++ one v ++ l)]) s' 0)).
    { apply Hst. clear H1 H2 H4 IH. enough_fuel. go. }
    assert (Hs : ev (fun E => e_lstt E c term item (Some (sr, k)) lim LSep sp (emits es s) acc)
        (Res (OTrue [VSink (acc ++ one w ++ one v ++ l)]) s' 0)).
    { apply Hst. clear H1 H3 H4 IH Hi. enough_fuel. go. }
    apply Hst. clear IH H2 H3 H4 Hi Htr. enough_fuel. go.
  - assert (Htr : ev (fun E => e_lstt E c term item (Some (sr, k)) lim LTrail (pos s) s1 (push w acc))
        (Res (OTrue [VSink (acc ++ one w)]) (report_trailing k (pos s) (pos s1) s1) 0)).
    { apply Hst. clear H1 H2. enough_fuel. go. }
    assert (Hs : ev (fun E => e_lstt E c term item (Some (sr, k)) lim LSep sp (emits es s) acc)
        (Res (OTrue [VSink (acc ++ one w)]) (report_trailing k (pos s) (pos s1) s1) 0)).
    { apply Hst. clear H1 H3. enough_fuel. go. }
    apply Hst. clear H2 H3 Htr. enough_fuel. go.
Qed.

(** *** Values in front *)
(** The outcome if the values [a] were there before. *)
Definition after (a : list val) (o : out) : out :=
  match o with OTrue vs => OTrue (a ++ vs) | OItem i vs => OItem i (a ++ vs) | o => o end.

Lemma den_after d o s m a : apply d final [] = Res o s m -> apply d final a = Res (after a o) s 0.
Proof.
  destruct d as [[]| | |]; cbn [apply sto app k_fn final]; try discriminate;
    rewrite ?posts_Res; intros [= <- <- _]; reflexivity.
Qed.

Lemma Runs_args c r s o s' a : pos s <= length inp -> Runs c r s o s' ->
  ev (fun E => e_parse E c r final s a) (Res (after a o) s' 0).
Proof.
  intros Hp [m [N H]]. exists N. intros n Hn. specialize (H n Hn).
  destruct (ge_parse _ _ _ (eng_good inp prods n) c r false s Hp) as (d & Hd & _).
  rewrite (Hd final []) in H by reflexivity. rewrite (Hd final a) by reflexivity.
  eapply den_after; eauto.
Qed.

Lemma Takes_args c r b s o s' a : pos s <= length inp -> Tries r s true b -> Finishes c r b s o s' ->
  ev (fun E => e_finish E c r b final s a) (Res (after a o) s' 0).
Proof.
  intros Hp [M Ht] [m [N H]]. exists (N + M). intros n Hn. specialize (H n ltac:(lia)).
  destruct (ge_finish _ _ _ (eng_good inp prods n) c r b false s Hp) as (d & Hd & _); [apply Ht; lia|].
  rewrite (Hd final []) in H by reflexivity. rewrite (Hd final a) by reflexivity.
  eapply den_after; eauto.
Qed.

Lemma Takes_args_inv n c r b s o s' a : pos s <= length inp -> 
  e_try (eng n) r (vars s) (pos s) = BR true b ->
  e_finish (eng n) c r b final s a = Res o s' 0 ->
  exists o1, Takes c r s o1 s' /\ o = after a o1.
Proof.
  intros Hp Ht H.
  destruct (ge_finish _ _ _ (eng_good inp prods n) c r b false s Hp Ht) as (d & Hd & _).
  pose proof (Hd final [] eq_refl) as H1. cbn beta in H1.
  rewrite (Hd final a) in H by reflexivity.
  destruct (apply d final []) as [o1 s1 m1| |] eqn:Ha.
  - rewrite (den_after _ _ _ _ a Ha) in H. injection H as <- <-. exists o1. split; auto.
    exists b. split; [eapply try_Tries; eauto|eapply finish_Finishes; eauto].
  - destruct d; cbn [apply] in *; try discriminate. cbn in Ha. rewrite posts_Res in Ha. discriminate.
  - destruct d; cbn [apply] in *; try discriminate. cbn in Ha. rewrite posts_Res in Ha. discriminate.
Qed.

(** Runs stay in the input and only go forward. *)
Lemma Runs_Mv c r s o s' : pos s <= length inp -> Runs c r s o s' -> Mv inp s s'.
Proof.
  intros Hp H. apply Runs_at in H. destruct H as (n & m & H).
  pose proof (run_d inp prods (eng n) (eng_good inp prods n) c r s true Hp ltac:(discriminate)) as Hd.
  rewrite H in Hd. destruct o; cbn in Hd; try apply Hd.
Qed.
Lemma Finishes_Mv c r b s o s' : pos s <= length inp -> Tries r s true b -> Finishes c r b s o s' -> Mv inp s s'.
Proof.
  intros Hp [N1 Ht] [m [N2 H]]. specialize (Ht (N1 + N2) ltac:(lia)). specialize (H (N1 + N2) ltac:(lia)).
  pose proof (runf_d inp prods (eng (N1 + N2)) (eng_good inp prods (N1 + N2)) c r b s true Hp Ht ltac:(discriminate)) as Hd.
  rewrite H in Hd. destruct o; cbn in Hd; try apply Hd.
Qed.
Lemma Takes_Mv c r s o s' : pos s <= length inp -> Takes c r s o s' -> Mv inp s s'.
Proof. intros Hp (b & Ht & Hf). eapply Finishes_Mv; eauto. Qed.
Lemma Declines_Mv r s es : pos s <= length inp -> Declines r s es -> Mv inp s (emits es s).
Proof. intros Hp H. apply S_debug; auto. eapply Declines_debug; eauto. Qed.

Lemma Mv_pos s s' : Mv inp s s' -> pos s' <= length inp.
Proof. intros H. exact (S_ok _ _ _ H). Qed.

Lemma report_Mv k b e s : pos s <= length inp -> b <= e -> e <= length inp -> Mv inp s (report_trailing k b e s).
Proof. intros. destruct k; cbn; [now apply S_error|now apply S_refl|now apply S_refl]. Qed.

Lemma TMore_Mv c term item sep s l s' : TMore c term item sep s l s' -> pos s <= length inp -> Mv inp s s'.
Proof.
  induction 1 as [sep s b H|s es v s1 l s' H1 H2 H3 IH|sr k s es w s1 b v s2 l s' H1 H2 H3 H4 H5 IH
                 |sr k s es w s1 b H1 H2 H3]; intros Hp.
  - now apply S_refl.
  - pose proof (Declines_Mv _ _ _ Hp H1) as M1. pose proof (Runs_Mv _ _ _ _ _ (Mv_pos _ _ M1) H2) as M2.
    eapply S_trans; [exact M1|]. eapply S_trans; [exact M2|]. apply IH, (Mv_pos _ _ M2).
  - pose proof (Declines_Mv _ _ _ Hp H1) as M1. pose proof (Runs_Mv _ _ _ _ _ (Mv_pos _ _ M1) H2) as M2.
    pose proof (Runs_Mv _ _ _ _ _ (Mv_pos _ _ M2) H4) as M3.
    eapply S_trans; [exact M1|]. eapply S_trans; [exact M2|]. eapply S_trans; [exact M3|].
    apply IH, (Mv_pos _ _ M3).
  - pose proof (Declines_Mv _ _ _ Hp H1) as M1. pose proof (Runs_Mv _ _ _ _ _ (Mv_pos _ _ M1) H2) as M2.
    eapply S_trans; [exact M1|]. eapply S_trans; [exact M2|].
    pose proof (S_pos _ _ _ M2). apply report_Mv; auto; exact (Mv_pos _ _ M2).
Qed.

Lemma report_same k b e s : pos (report_trailing k b e s) = pos s /\ vars (report_trailing k b e s) = vars s.
Proof. now destruct k. Qed.

Lemma tlist_runs c term item sep lim s v s1 l s2 o s' : pos s <= length inp ->
  Runs c item s (OTrue v) s1 -> TMore c term item sep s1 l s2 -> Takes c term s2 o s' ->
  Runs c (RLstT term item sep lim) s (after [VSink (one v ++ l)] o) s'.
Proof.
  intros Hp H1 H2 (b & Ht & Hf). pose proof (Runs_Mv _ _ _ _ _ Hp H1) as M1.
  pose proof (TMore_Mv _ _ _ _ _ _ _ H2 (Mv_pos _ _ M1)) as M2.
  pose proof (Takes_args _ _ _ _ _ _ [VSink (one v ++ l)] (Mv_pos _ _ M2) Ht Hf) as Hf'. clear Hf.
  apply (lstt_fwd c term item lim) with (acc := push v []) (sp := pos s1) in H2.
  apply Runs_shift. exists 0. cbn [parse_step]. unfold p_lstt. enough_fuel. go.
Qed.

(** *** Without errors this is the only way *)
Definition quiet (s s' : st) : Prop := exists es, trace s' = rev es ++ trace s /\ has_error es = false.

Lemma ext_unique s s' es es' : trace s' = rev es ++ trace s -> trace s' = rev es' ++ trace s -> es = es'.
Proof.
  intros -> H. apply app_inv_tail in H. apply (f_equal (@rev _)) in H. now rewrite !rev_involutive in H.
Qed.
Lemma quiet_err s s' : quiet s s' -> HasErr s s' -> False.
Proof.
  intros (es & H1 & H2) (es' & H3 & H4). rewrite (ext_unique _ _ _ _ H3 H1) in H4. congruence.
Qed.
Lemma quiet_r s s1 s' : quiet s s' -> Mv inp s s1 -> Mv inp s1 s' -> quiet s1 s'.
Proof.
  intros (es & H1 & H2) (e1 & H3 & _) (e2 & H4 & _). exists e2. split; [exact H4|].
  unfold ext in *. rewrite H3, app_assoc, <- rev_app_distr in H4.
  rewrite (ext_unique _ _ _ _ H1 H4) in H2. unfold has_error in *. rewrite existsb_app in H2.
  now apply orb_false_iff in H2.
Qed.
Lemma quiet_fails w s s1 s' : guarded prods -> w = false -> Fl inp prods w s s1 -> Mv inp s1 s' -> quiet s s' -> False.
Proof.
  intros Hg Hw [_ He] Hm Hq. eapply quiet_err; [exact Hq|]. eapply HasErr_r; [apply He; auto|exact Hm].
Qed.

Lemma dres_Mv w s o s' m : dres inp prods w s (Res o s' m) -> Mv inp s s' /\ m = 0.
Proof. destruct o; cbn; try (intros H; exact H). intros [H1 H2]. split; auto. apply H1. Qed.

Lemma lstt_clean c term item lim sep : guarded prods ->
  weak term = false -> weak item = false -> weaks sep = false -> weakc c = false ->
  forall n s acc sp s' o m, pos s <= length inp -> sp <= pos s ->
  e_lstt (eng n) c term item sep lim LTerm sp s acc = Res o s' m -> quiet s s' ->
  exists l, TMore c term item sep s l s' /\ o = OTrue [VSink (acc ++ l)].
Proof.
  intros Hg Hwt Hwi Hws Hwc n. induction n as [n IH] using (well_founded_induction Wf_nat.lt_wf).
  intros s acc sp s' o m Hp Hsp H Hq.
  (* the tail of the loop, from an item on *)
  assert (Hitem : forall k s1 acc sp, k < n -> pos s1 <= length inp -> sp <= pos s1 ->
    e_lstt (eng k) c term item sep lim LItem sp s1 acc = Res o s' m -> quiet s1 s' ->
    exists v s2 l, Runs c item s1 (OTrue v) s2 /\ TMore c term item sep s2 l s' /\
      o = OTrue [VSink (acc ++ one v ++ l)]).
  { intros [|k] s1 acc1 sp1 Hk Hp1 Hsp1 H1 Hq1; [discriminate|]. cbn [RuleModel.eng step e_lstt lstt_step] in H1.
    destruct (e_parse (eng k) c item final s1 []) as [o1 s2 m2| |] eqn:He; try discriminate.
    pose proof (run_d inp prods (eng k) (eng_good inp prods k) c item s1 false Hp1 ltac:(auto)) as Hd.
    rewrite He in Hd. pose proof (proj1 (dres_Mv _ _ _ _ _ Hd)) as M1.
    pose proof (S_pos _ _ _ M1) as L1.
    destruct o1; cbn [orelse] in H1; try discriminate.
    - exfalso. pose proof (ge_lstt _ _ _ (eng_good inp prods k) c term item sep lim LRecovery sp1 s2 acc1 (Mv_pos _ _ M1) ltac:(lia)) as Hd2.
      cbn beta iota in Hd2. rewrite H1 in Hd2. apply dres_Mv in Hd2. destruct Hd2 as [M2 _].
      destruct Hd as [Hd _]. eapply quiet_fails; [exact Hg|reflexivity|exact Hd|exact M2|exact Hq1].
    - pose proof (ge_lstt _ _ _ (eng_good inp prods k) c term item sep lim LTerm sp1 s2 (push vs acc1) (Mv_pos _ _ M1) ltac:(lia)) as Hd2.
      cbn beta iota in Hd2. rewrite H1 in Hd2. apply dres_Mv in Hd2. destruct Hd2 as [M2 _].
      apply IH in H1; [|lia|exact (Mv_pos _ _ M1)|lia|eapply quiet_r; eauto].
      destruct H1 as (l & H1 & ->). exists vs, s2, l. rewrite push_one, <- app_assoc. split; [|auto].
      eapply parse_Runs; eauto. }
  destruct n as [|n]; [discriminate|]. cbn [RuleModel.eng step e_lstt lstt_step] in H.
  destruct (e_try (eng n) term (vars s) (pos s)) as [[|] b| |] eqn:Ht; try discriminate.
  { injection H as <- <- _. exists []. rewrite app_nil_r. split; auto. apply tm_end with b.
    eapply try_Tries; eauto. }
  unfold cancel_then in H. destruct (e_cancel (eng n) term b) as [es|] eqn:Hc; [|discriminate].
  assert (Hd : Declines term s es).
  { exists b. split; [eapply try_Tries; eauto|eapply cancel_Cancels; eauto]. }
  pose proof (Declines_Mv _ _ _ Hp Hd) as M0.
  destruct n as [|n]; [discriminate|]. cbn [RuleModel.eng step e_lstt lstt_step] in H.
  destruct sep as [[sr k]|].
  - destruct (e_parse (eng n) c sr final (emits es s) []) as [o1 s1 m1| |] eqn:He; try discriminate.
    pose proof (run_d inp prods (eng n) (eng_good inp prods n) c sr (emits es s) false Hp ltac:(auto)) as Hd1.
    rewrite He in Hd1. pose proof (proj1 (dres_Mv _ _ _ _ _ Hd1)) as M1. pose proof (S_pos _ _ _ M1) as L1.
    change (pos (emits es s)) with (pos s) in *.
    assert (Hrest : Mv inp s1 s').
    { pose proof (ge_lstt _ _ _ (eng_good inp prods n) c term item (Some (sr, k)) lim) as Hl.
      destruct o1; cbn [orelse] in H; try discriminate.
      - destruct (pos s =? pos s1).
        + destruct (is_branch item).
          * destruct (e_try (eng n) item (vars s1) (pos s1)) as [[|] b1| |] eqn:Hti; try discriminate.
            -- pose proof (runf_d inp prods (eng n) (eng_good inp prods n) c item b1 s1 true (Mv_pos _ _ M1) Hti ltac:(discriminate)) as Hd3.
               destruct (e_finish (eng n) c item b1 final s1 []) as [[] s3 m3| |]; try discriminate; cbn [orelse] in H;
                 apply dres_Mv in Hd3; destruct Hd3 as [M3 _]; pose proof (S_pos _ _ _ M3).
               ++ unfold cancel_then in H. destruct (e_cancel (eng n) item b1) as [es3|] eqn:Hc3; [|discriminate].
                  assert (M4 : Mv inp s3 (emits es3 s3)).
                  { apply S_debug; [exact (Mv_pos _ _ M3)|]. eapply (ge_cancel _ _ _ (eng_good inp prods n)); eauto. }
                  specialize (Hl LRecovery (pos s) (emits es3 s3) acc (Mv_pos _ _ M3) ltac:(cbn; lia)). cbn beta iota in Hl.
                  rewrite H in Hl. apply dres_Mv in Hl. eapply S_trans; [exact M3|]. eapply S_trans; [exact M4|apply Hl].
               ++ specialize (Hl LTerm (pos s) s3 (push vs acc) (Mv_pos _ _ M3) ltac:(lia)). cbn beta iota in Hl.
                  rewrite H in Hl. apply dres_Mv in Hl. eapply S_trans; [exact M3|apply Hl].
            -- unfold cancel_then in H. destruct (e_cancel (eng n) item b1) as [es3|] eqn:Hc3; [|discriminate].
               assert (M4 : Mv inp s1 (emits es3 s1)).
               { apply S_debug; [exact (Mv_pos _ _ M1)|]. eapply (ge_cancel _ _ _ (eng_good inp prods n)); eauto. }
               specialize (Hl LRecovery (pos s) (emits es3 s1) acc (Mv_pos _ _ M1) ltac:(cbn; lia)). cbn beta iota in Hl.
               rewrite H in Hl. apply dres_Mv in Hl. eapply S_trans; [exact M4|apply Hl].
          * specialize (Hl LRecovery (pos s) s1 acc (Mv_pos _ _ M1) ltac:(lia)). cbn beta iota in Hl.
            rewrite H in Hl. apply dres_Mv in Hl. apply Hl.
        + specialize (Hl LRecovery (pos s) s1 acc (Mv_pos _ _ M1) ltac:(lia)). cbn beta iota in Hl.
          rewrite H in Hl. apply dres_Mv in Hl. apply Hl.
      - specialize (Hl LTrail (pos s) s1 (push vs acc) (Mv_pos _ _ M1) ltac:(lia)). cbn beta iota in Hl.
        rewrite H in Hl. apply dres_Mv in Hl. apply Hl. }
    assert (Hq1 : quiet (emits es s) s').
    { eapply quiet_r; [exact Hq|exact M0|]. eapply S_trans; [exact M1|exact Hrest]. }
    destruct o1; cbn [orelse] in H; try discriminate.
    { exfalso. destruct Hd1 as [Hd1 _]. eapply quiet_fails; [exact Hg| |exact Hd1|exact Hrest|exact Hq1]. reflexivity. }
    assert (Hq2 : quiet s1 s') by (eapply quiet_r; eauto).
    apply parse_Runs in He.
    destruct n as [|n]; [discriminate|]. cbn [RuleModel.eng step e_lstt lstt_step] in H.
    destruct (e_try (eng n) term (vars s1) (pos s1)) as [[|] b1| |] eqn:Ht1; try discriminate.
    + injection H as <- <- _. exists (one vs). rewrite push_one. split; auto.
      eapply tm_trailing; [exact Hd|exact He|eapply try_Tries; eauto].
    + apply Hitem in H; [|lia|exact (Mv_pos _ _ M1)|lia|exact Hq2].
      destruct H as (v & s2 & l & H1 & H2 & ->). exists (one vs ++ one v ++ l).
      rewrite push_one, <- app_assoc. split; auto.
      eapply tm_sep_item; [exact Hd|exact He|eapply try_Tries; eauto|exact H1|exact H2].
  - assert (Hrest : Mv inp (emits es s) s').
    { pose proof (ge_lstt _ _ _ (eng_good inp prods n) c term item None lim LItem sp (emits es s) acc Hp Hsp) as Hl.
      cbn beta iota in Hl. rewrite H in Hl. apply dres_Mv in Hl. apply Hl. }
    apply Hitem in H; [|lia|exact Hp|exact Hsp|eapply quiet_r; eauto].
    destruct H as (v & s2 & l & H1 & H2 & ->). exists (one v ++ l). split; auto.
    eapply tm_item; [exact Hd|exact H1|exact H2].
Qed.

Lemma tlist_clean c term item sep lim s o s' : guarded prods ->
  weak (RLstT term item sep lim) = false -> weakc c = false -> pos s <= length inp ->
  Runs c (RLstT term item sep lim) s o s' -> quiet s s' ->
  exists v s1 l s2 o', Runs c item s (OTrue v) s1 /\ TMore c term item sep s1 l s2 /\
    Takes c term s2 o' s' /\ o = after [VSink (one v ++ l)] o'.
Proof.
  intros Hg Hw Hwc Hp H Hq. cbn [weak] in Hw. apply orb_false_iff in Hw. destruct Hw as [Hw Hws].
  apply orb_false_iff in Hw. destruct Hw as [Hwt Hwi].
  apply Runs_shift in H. destruct H as [m H]. apply ev_at in H. destruct H as [n H].
  cbn [parse_step] in H. unfold p_lstt in H.
  destruct (e_parse (eng n) c item final s []) as [o1 s1 m1| |] eqn:He; try discriminate.
  pose proof (run_d inp prods (eng n) (eng_good inp prods n) c item s false Hp ltac:(auto)) as Hd.
  rewrite He in Hd. pose proof (proj1 (dres_Mv _ _ _ _ _ Hd)) as M1.
  assert (Hfin : forall s2 v o s' m,
     match e_try (eng n) term (vars s2) (pos s2) with
     | BR true b => e_finish (eng n) c term b final s2 ([] ++ v)
     | BR false _ => Crash | BNoFuel => NoFuel | BCrash => Crash end = Res o s' m ->
     pos s2 <= length inp -> (exists o', Takes c term s2 o' s' /\ o = after v o') /\ Mv inp s2 s').
  { intros s2 v o2 s3 m3 Hx Hp2. cbn [app] in Hx.
    destruct (e_try (eng n) term (vars s2) (pos s2)) as [[|] b| |] eqn:Ht; try discriminate.
    assert (m3 = 0) as ->.
    { destruct (ge_finish _ _ _ (eng_good inp prods n) c term b false s2 Hp2 Ht) as (d & Hd2 & _).
      rewrite (Hd2 final v) in Hx by reflexivity. destruct d as [| | |]; cbn [apply] in Hx; try discriminate.
      - now injection Hx as _ _ <-.
      - cbn in Hx. rewrite posts_Res in Hx. now injection Hx as _ _ <-. }
    pose proof (Takes_args_inv _ _ _ _ _ _ _ _ Hp2 Ht Hx) as (o' & H1 & H2). split; [eauto|].
    eapply Takes_Mv; eauto. }
  destruct o1; cbn [orelse] in H; try discriminate.
  - exfalso.
    pose proof (ge_lstt _ _ _ (eng_good inp prods n) c term item sep lim LRecovery (pos s1) s1 [] (Mv_pos _ _ M1) ltac:(lia)) as Hl.
    cbn beta iota in Hl.
    destruct (e_lstt (eng n) c term item sep lim LRecovery (pos s1) s1 []) as [o2 s2 m2| |]; try discriminate.
    apply dres_Mv in Hl. destruct Hl as [M2 _].
    assert (M3 : Mv inp s2 s').
    { destruct o2; cbn [delim] in H; try discriminate.
      - injection H as _ <- _. apply S_refl. exact (Mv_pos _ _ M2).
      - apply Hfin in H; [apply H|exact (Mv_pos _ _ M2)]. }
    destruct Hd as [Hd _]. eapply quiet_fails; [exact Hg| |exact Hd|eapply S_trans; eauto|exact Hq]. reflexivity.
  - pose proof (ge_lstt _ _ _ (eng_good inp prods n) c term item sep lim LTerm (pos s1) s1 (push vs []) (Mv_pos _ _ M1) ltac:(lia)) as Hl.
    cbn beta iota in Hl.
    destruct (e_lstt (eng n) c term item sep lim LTerm (pos s1) s1 (push vs [])) as [o2 s2 m2| |] eqn:Hel; try discriminate.
    apply dres_Mv in Hl. destruct Hl as [M2 _].
    assert (M3 : Mv inp s2 s').
    { destruct o2; cbn [delim] in H; try discriminate.
      - injection H as _ <- _. apply S_refl. exact (Mv_pos _ _ M2).
      - apply Hfin in H; [apply H|exact (Mv_pos _ _ M2)]. }
    assert (Hq2 : quiet s1 s2).
    { assert (Hq1 : quiet s1 s') by (eapply quiet_r; [exact Hq|exact M1|eapply S_trans; eauto]).
      destruct Hq1 as (es & H1 & H2), M2 as (e1 & H3 & _), M3 as (e2 & H4 & _). exists e1. split; [exact H3|].
      unfold ext in *. rewrite H3, app_assoc, <- rev_app_distr in H4.
      rewrite (ext_unique _ _ _ _ H1 H4) in H2. unfold has_error in *. rewrite existsb_app in H2.
      now apply orb_false_iff in H2. }
    pose proof Hel as Hel0.
    eapply lstt_clean in Hel; eauto; [|exact (Mv_pos _ _ M1)].
    destruct Hel as (l & Hl & ->). cbn [delim] in H. apply Hfin in H; [|exact (Mv_pos _ _ M2)].
    destruct H as [(o' & Ht & ->) _]. exists vs, s1, l, s2, o'. rewrite push_one. cbn [app]. repeat split; auto.
    eapply parse_Runs; eauto.
Qed.

(** *** Recovery of the list with terminator *)
(** Units are skipped while neither [first] (the separator or, without one, the item) nor the
    terminator matches; the search does not go past a limit. *)
Inductive Scan (first term : rule) (lim : token) : st -> st -> Prop :=
| scan_here s : Scan first term lim s s
| scan_skip s es es2 s' : Declines first s es -> Declines term (emits es s) es2 ->
    fst (tk_try lim inp (pos s)) = false -> pos s < length inp ->
    Scan first term lim (setpos (S (pos s)) (emits es2 (emits es s))) s' ->
    Scan first term lim s s'.

Lemma eof_false p : p < length inp -> eof inp p = false.
Proof. unfold eof. intros. apply Nat.leb_gt. lia. Qed.

(** The list with separator and terminator, with its recovery.  After an item; after the separator
    that began at [sp]; after something that could not be parsed. *)
Inductive phase := PItem | PSep (sp : nat) | PBad.

Inductive TRec (c : cx) (term item sr : rule) (k : sepk) (lim : token) :
    phase -> st -> list (list val) -> st -> Prop :=
| tr_end s b : Tries term s true b -> TRec c term item sr k lim PItem s [] s
| tr_sep s es w s1 l s' : Declines term s es -> Runs c sr (emits es s) (OTrue w) s1 ->
    TRec c term item sr k lim (PSep (pos s)) s1 l s' -> TRec c term item sr k lim PItem s (one w ++ l) s'
| tr_trailing sp s b : Tries term s true b ->
    TRec c term item sr k lim (PSep sp) s [] (report_trailing k sp (pos s) s)
| tr_item sp s b v s1 l s' : Tries term s false b -> Runs c item s (OTrue v) s1 ->
    TRec c term item sr k lim PItem s1 l s' -> TRec c term item sr k lim (PSep sp) s (one v ++ l) s'
| tr_bad_item sp s b s1 l s' : Tries term s false b -> Runs c item s OFalse s1 ->
    TRec c term item sr k lim PBad s1 l s' -> TRec c term item sr k lim (PSep sp) s l s'
| tr_missing_sep s es s1 v s2 l s' : Declines term s es -> Runs c sr (emits es s) OFalse s1 ->
    pos s1 = pos s -> is_branch item = true -> Takes c item s1 (OTrue v) s2 ->
    TRec c term item sr k lim PItem s2 l s' -> TRec c term item sr k lim PItem s (one v ++ l) s'
| tr_bad_sep s es s1 es1 l s' : Declines term s es -> Runs c sr (emits es s) OFalse s1 ->
    (pos s1 <> pos s \/ is_branch item = false) /\ es1 = [] \/
    pos s1 = pos s /\ is_branch item = true /\ Declines item s1 es1 ->
    TRec c term item sr k lim PBad (emits es1 s1) l s' -> TRec c term item sr k lim PItem s l s'
| tr_resume s s1 b w s2 l s' : Scan sr term lim (emit (ERStart (pos s)) s) s1 -> Tries sr s1 true b ->
    Finishes c sr b (lstt_recovered (pos s) s1) (OTrue w) s2 ->
    TRec c term item sr k lim (PSep (pos s1)) s2 l s' -> TRec c term item sr k lim PBad s (one w ++ l) s'
| tr_stop s s1 es b : Scan sr term lim (emit (ERStart (pos s)) s) s1 -> Declines sr s1 es ->
    Tries term (emits es s1) true b ->
    TRec c term item sr k lim PBad s [] (lstt_recovered (pos s) (emits es s1)).

Lemma scan_sep c term item sr k lim b x acc s s1 : Scan sr term lim s s1 ->
  (forall sp, ev (fun E => e_lstt E c term item (Some (sr, k)) lim (LSearch b) sp s1 acc) x) ->
  forall sp, ev (fun E => e_lstt E c term item (Some (sr, k)) lim (LSearch b) sp s acc) x.
Proof.
  intros H Hx. induction H as [s|s es es2 s' H1 H2 H3 H4 H5 IH]; intros sp; [apply Hx|].
  specialize (IH Hx (pos s)). apply ev_shift. cbn [step e_lstt]. clear Hx H5. enough_fuel.
  cbn [lstt_step]. unfold cancel_then, lstt_limit. go. same_pos.
  rewrite H3, (eof_false _ H4). cbn [orb]. first [assumption|reflexivity].
Qed.

Definition state_of (ph : phase) : lstate := match ph with PItem => LTerm | PSep _ => LTrail | PBad => LRecovery end.

Lemma lstt_rec c term item sr k lim ph s l s' : TRec c term item sr k lim ph s l s' ->
  forall acc sp, (forall q, ph = PSep q -> sp = q) ->
  ev (fun E => e_lstt E c term item (Some (sr, k)) lim (state_of ph) sp s acc)
     (Res (OTrue [VSink (acc ++ l)]) s' 0).
Proof.
  assert (Hst : forall ls sp s acc x,
     ev (fun E => lstt_step inp prods E c term item (Some (sr, k)) lim ls sp s acc) x ->
     ev (fun E => e_lstt E c term item (Some (sr, k)) lim ls sp s acc) x).
  { intros. now apply ev_shift. }
  induction 1 as [s b H|s es w s1 l s' H1 H2 H3 IH|sp0 s b H|sp0 s b v s1 l s' H1 H2 H3 IH
    |sp0 s b s1 l s' H1 H2 H3 IH|s es s1 v s2 l s' H1 H2 H3 H4 H5 H6 IH|s es s1 es1 l s' H1 H2 H3 H4 IH
    |s s1 b w s2 l s' H1 H2 H3 H4 IH|s s1 es b H1 H2 H3]; intros acc sp Hq; cbn [state_of] in *.
  - apply Hst. enough_fuel. go.
  - specialize (IH (push w acc) (pos s) ltac:(congruence)).
    assert (Hs : ev (fun E => e_lstt E c term item (Some (sr, k)) lim LSep sp (emits es s) acc)
        (Res (OTrue [VSink (acc ++ one w ++ l)]) s' 0)).
    { apply Hst. clear H1 H3. enough_fuel. go. }
    apply Hst. clear IH H2 H3. enough_fuel. go.
  - rewrite (Hq sp0 eq_refl). apply Hst. enough_fuel. go.
  - specialize (IH (push v acc) sp ltac:(congruence)).
    assert (Hs : ev (fun E => e_lstt E c term item (Some (sr, k)) lim LItem sp s acc)
        (Res (OTrue [VSink (acc ++ one v ++ l)]) s' 0)).
    { apply Hst. clear H1 H3. enough_fuel. go. }
    apply Hst. clear IH H2 H3. enough_fuel. go.
  - specialize (IH acc sp ltac:(congruence)).
    assert (Hs : ev (fun E => e_lstt E c term item (Some (sr, k)) lim LItem sp s acc)
        (Res (OTrue [VSink (acc ++ l)]) s' 0)).
    { apply Hst. clear H1 H3. enough_fuel. go. }
    apply Hst. clear IH H2 H3. enough_fuel. go.
  - specialize (IH (push v acc) (pos s) ltac:(congruence)).
    assert (Hs : ev (fun E => e_lstt E c term item (Some (sr, k)) lim LSep sp (emits es s) acc)
        (Res (OTrue [VSink (acc ++ one v ++ l)]) s' 0)).
    { apply Hst. clear H1 H6. enough_fuel. go. rewrite H3, Nat.eqb_refl. rewrite H3 in *. go. }
    apply Hst. clear IH H2 H5 H6. enough_fuel. go.
  - specialize (IH acc (pos s) ltac:(congruence)).
    assert (Hs : ev (fun E => e_lstt E c term item (Some (sr, k)) lim LSep sp (emits es s) acc)
        (Res (OTrue [VSink (acc ++ l)]) s' 0)).
    { apply Hst. clear H1 H4. destruct H3 as [[H3 ->]|(Hp & Hb & H3)].
      - rewrite emits_nil in IH. enough_fuel. go.
        destruct H3 as [H3|H3]; [destruct (Nat.eqb_spec (pos s) (pos s1)); [congruence|first [assumption|reflexivity]]|].
        rewrite H3. destruct (pos s =? pos s1); first [assumption|reflexivity].
      - enough_fuel. go. rewrite Hp, Nat.eqb_refl. rewrite Hp in *. go. }
    apply Hst. clear IH H2 H3 H4. enough_fuel. go.
  - specialize (IH (push w acc) (pos s1) ltac:(congruence)).
    apply Hst. cbn [lstt_step]. eapply scan_sep; [exact H1|]. intros sp1. apply Hst.
    clear H1 H4. enough_fuel. go.
  - apply Hst. cbn [lstt_step]. eapply scan_sep; [exact H1|]. intros sp1. apply Hst.
    clear H1. enough_fuel. cbn [lstt_step]. unfold lstt_limit. go.
Qed.

Lemma Scan_Mv first term lim s s' : Scan first term lim s s' -> forall b s0,
  pos s <= length inp -> b <= pos s -> Mv inp (emit (ERStart b) s0) (setpos b s) ->
  pos s' <= length inp /\ b <= pos s' /\ Mv inp (emit (ERStart b) s0) (setpos b s').
Proof.
  induction 1 as [s|s es es2 s' H1 H2 H3 H4 H5 IH]; intros b s0 Hp Hb Hm; [auto|].
  apply (IH b s0); [cbn; lia|cbn; lia|].
  assert (Hd : debug (es ++ es2)) by (apply debug_app; eapply Declines_debug; eauto).
  eapply S_trans; [exact Hm|].
  change (setpos b (setpos (S (pos s)) (emits es2 (emits es s)))) with (emits es2 (emits es (setpos b s))).
  rewrite emits_app. apply S_debug; auto. exact (Mv_pos _ _ Hm).
Qed.

Lemma TRec_Mv c term item sr k lim ph s l s' : TRec c term item sr k lim ph s l s' ->
  pos s <= length inp -> (forall q, ph = PSep q -> q <= pos s) -> Mv inp s s'.
Proof.
  induction 1 as [s b H|s es w s1 l s' H1 H2 H3 IH|sp0 s b H|sp0 s b v s1 l s' H1 H2 H3 IH
    |sp0 s b s1 l s' H1 H2 H3 IH|s es s1 v s2 l s' H1 H2 H3 H4 H5 H6 IH|s es s1 es1 l s' H1 H2 H3 H4 IH
    |s s1 b w s2 l s' H1 H2 H3 H4 IH|s s1 es b H1 H2 H3]; intros Hp Hq.
  - now apply S_refl.
  - pose proof (Declines_Mv _ _ _ Hp H1) as M1. pose proof (Runs_Mv _ _ _ _ _ (Mv_pos _ _ M1) H2) as M2.
    eapply S_trans; [exact M1|]. eapply S_trans; [exact M2|]. apply IH; [exact (Mv_pos _ _ M2)|].
    intros q [= <-]. exact (S_pos _ _ _ M2).
  - apply report_Mv; auto.
  - pose proof (Runs_Mv _ _ _ _ _ Hp H2) as M2. eapply S_trans; [exact M2|].
    apply IH; [exact (Mv_pos _ _ M2)|discriminate].
  - pose proof (Runs_Mv _ _ _ _ _ Hp H2) as M2. eapply S_trans; [exact M2|].
    apply IH; [exact (Mv_pos _ _ M2)|discriminate].
  - pose proof (Declines_Mv _ _ _ Hp H1) as M1. pose proof (Runs_Mv _ _ _ _ _ (Mv_pos _ _ M1) H2) as M2.
    pose proof (Takes_Mv _ _ _ _ _ (Mv_pos _ _ M2) H5) as M3.
    eapply S_trans; [exact M1|]. eapply S_trans; [exact M2|]. eapply S_trans; [exact M3|].
    apply IH; [exact (Mv_pos _ _ M3)|discriminate].
  - pose proof (Declines_Mv _ _ _ Hp H1) as M1. pose proof (Runs_Mv _ _ _ _ _ (Mv_pos _ _ M1) H2) as M2.
    assert (M3 : Mv inp s1 (emits es1 s1)).
    { destruct H3 as [[_ ->]|(_ & _ & H3)].
      - rewrite emits_nil. apply S_refl. exact (Mv_pos _ _ M2).
      - apply Declines_Mv with item; auto. exact (Mv_pos _ _ M2). }
    eapply S_trans; [exact M1|]. eapply S_trans; [exact M2|]. eapply S_trans; [exact M3|].
    apply IH; [exact (Mv_pos _ _ M3)|discriminate].
  - assert (M0 : Mv inp (emit (ERStart (pos s)) s) (setpos (pos s) (emit (ERStart (pos s)) s))).
    { apply S_refl. exact Hp. }
    destruct (Scan_Mv _ _ _ _ _ H1 (pos s) s Hp (le_n _) M0) as (Hp1 & Hb1 & M1).
    assert (M2 : Mv inp s (lstt_recovered (pos s) s1)).
    { apply (Mv_search inp (pos s) s s1 (pos s)); auto. }
    pose proof (Finishes_Mv c sr b (lstt_recovered (pos s) s1) _ _ (Mv_pos _ _ M2) H2 H3) as M3.
    eapply S_trans; [exact M2|]. eapply S_trans; [exact M3|]. apply IH; [exact (Mv_pos _ _ M3)|].
    intros q [= <-]. exact (S_pos _ _ _ M3).
  - assert (M0 : Mv inp (emit (ERStart (pos s)) s) (setpos (pos s) (emit (ERStart (pos s)) s))).
    { apply S_refl. exact Hp. }
    destruct (Scan_Mv _ _ _ _ _ H1 (pos s) s Hp (le_n _) M0) as (Hp1 & Hb1 & M1).
    apply (Mv_search inp (pos s) s (emits es s1) (pos s)); auto.
    eapply S_trans; [exact M1|]. apply (S_debug inp (setpos (pos s) s1) es); [exact Hp|].
    eapply Declines_debug; eauto.
Qed.

Lemma tlist_recovers c term item sr k lim s v s1 l s2 o s' : pos s <= length inp ->
  (Runs c item s (OTrue v) s1 /\ TRec c term item sr k lim PItem s1 l s2) \/
  (v = [] /\ Runs c item s OFalse s1 /\ TRec c term item sr k lim PBad s1 l s2) ->
  Takes c term s2 o s' ->
  Runs c (RLstT term item (Some (sr, k)) lim) s (after [VSink (one v ++ l)] o) s'.
Proof.
  intros Hp H (b & Ht & Hf). apply Runs_shift. exists 0. cbn [parse_step]. unfold p_lstt.
  destruct H as [[H1 H2]|(-> & H1 & H2)]; pose proof (Runs_Mv _ _ _ _ _ Hp H1) as M1;
    pose proof (TRec_Mv _ _ _ _ _ _ _ _ _ _ H2 (Mv_pos _ _ M1) ltac:(discriminate)) as M2.
  - pose proof (Takes_args _ _ _ _ _ _ [VSink (one v ++ l)] (Mv_pos _ _ M2) Ht Hf) as Hf'. clear Hf.
    apply lstt_rec with (acc := push v []) (sp := pos s1) in H2; [|discriminate]. cbn [state_of] in H2.
    enough_fuel. go.
  - pose proof (Takes_args _ _ _ _ _ _ [VSink l] (Mv_pos _ _ M2) Ht Hf) as Hf'. clear Hf.
    apply lstt_rec with (acc := []) (sp := pos s1) in H2; [|discriminate]. cbn [state_of] in H2.
    enough_fuel. go.
Qed.

(** ** repeat *)
(** [n] more items, each after a separator; then the trailing separator rule. *)
Inductive RepMore (c : cx) (item : rule) : option (rule * sepk) -> nat -> st -> list (list val) -> st -> Prop :=
| rep_end s : RepMore c item None 0 s [] s
| rep_item n s v s1 l s' : Runs c item s (OTrue v) s1 -> RepMore c item None n s1 l s' ->
    RepMore c item None (S n) s (one v ++ l) s'
| rep_sep_end sp s v s' : Runs c (trailing_rule sp) s (OTrue v) s' -> RepMore c item (Some sp) 0 s (one v) s'
| rep_sep_item sr k n s w s1 v s2 l s' : Runs c sr s (OTrue w) s1 -> Runs c item s1 (OTrue v) s2 ->
    RepMore c item (Some (sr, k)) n s2 l s' -> RepMore c item (Some (sr, k)) (S n) s (one w ++ one v ++ l) s'.

(** Exactly [n] items. *)
Inductive Repeated (c : cx) (item : rule) (sep : option (rule * sepk)) : nat -> st -> list (list val) -> st -> Prop :=
| repeated_0 s : Repeated c item sep 0 s [] s
| repeated_S n s v s1 l s' : Runs c item s (OTrue v) s1 -> RepMore c item sep n s1 l s' ->
    Repeated c item sep (S n) s (one v ++ l) s'.

Lemma rep_more_fwd c item sep n s l s' : RepMore c item sep n s l s' -> forall acc,
  ev (fun E => rep_more E c item sep n s acc) (Res (OTrue [VSink (acc ++ l)]) s' 0).
Proof.
  induction 1 as [s|n s v s1 l s' H1 H2 IH|sp s v s' H|sr k n s w s1 v s2 l s' H1 H2 H3 IH]; intros acc; cbn [rep_more].
  - rewrite app_nil_r. now apply ev_const.
  - specialize (IH (push v acc)). enough_fuel. go; assumption.
  - enough_fuel. go.
  - specialize (IH (push v (push w acc))). enough_fuel. go. rewrite <- app_assoc. assumption.
Qed.

Lemma rep_more_bwd c item sep n0 : forall n s acc vs s' m,
  rep_more (eng n0) c item sep n s acc = Res (OTrue vs) s' m ->
  exists l, RepMore c item sep n s l s' /\ vs = [VSink (acc ++ l)].
Proof.
  induction n as [|n IH]; intros s acc vs s' m; cbn [rep_more].
  - destruct sep as [sp|].
    + destruct (e_parse (eng n0) c (trailing_rule sp) final s []) as [[] s1 m1| |] eqn:He; try discriminate.
      cbn [delim]. intros [= <- <- _]. exists (one vs0). rewrite push_one. split; auto.
      constructor. eapply parse_Runs; eauto.
    + intros [= <- <- _]. exists []. rewrite app_nil_r. split; auto. constructor.
  - destruct sep as [[sr k]|].
    + destruct (e_parse (eng n0) c sr final s []) as [[] s1 m1| |] eqn:He; try discriminate. cbn [delim].
      destruct (e_parse (eng n0) c item final s1 []) as [[] s2 m2| |] eqn:He2; try discriminate. cbn [delim].
      intros H. apply IH in H. destruct H as (l & H & ->).
      exists (one vs0 ++ one vs1 ++ l). rewrite !push_one, <- !app_assoc. split; auto.
      apply parse_Runs in He. apply parse_Runs in He2. econstructor; eauto.
    + destruct (e_parse (eng n0) c item final s []) as [[] s1 m1| |] eqn:He; try discriminate. cbn [delim].
      intros H. apply IH in H. destruct H as (l & H & ->).
      exists (one vs0 ++ l). rewrite !push_one, <- !app_assoc. split; auto.
      apply parse_Runs in He. econstructor; eauto.
Qed.

Lemma repeat_runs c m count item sep s vs s' :
  Runs c (RRep m count item sep) s (OTrue vs) s' <->
  exists cv s1 n l, Runs c count s (OTrue cv) s1 /\ count_of cv = Some n /\ Repeated c item sep n s1 l s' /\
    vs = match m with RepDiscard => [] | RepList => [VSink l] | RepCapture => [VLex (pos s1) (pos s')] end.
Proof.
  rewrite Runs_shift. cbn [parse_step]. split.
  - intros [m0 H]. apply ev_at in H. destruct H as [n0 H].
    destruct (e_parse (eng n0) c count final s []) as [[] s1 m1| |] eqn:He; try discriminate.
    cbn [delim] in H. unfold rep_run in H. destruct (count_of vs0) as [n|] eqn:Hc; [|discriminate].
    apply parse_Runs in He.
    assert (Hr : forall l s2, Repeated c item sep n s1 l s2 ->
      k_fn final s2 (match m with RepDiscard => [] | RepList => [] ++ [VSink l]
                     | RepCapture => [] ++ [VLex (pos s1) (pos s2)] end) = Res (OTrue vs) s' m0 ->
      exists cv s1 n l, Runs c count s (OTrue cv) s1 /\ count_of cv = Some n /\ Repeated c item sep n s1 l s' /\
        vs = match m with RepDiscard => [] | RepList => [VSink l] | RepCapture => [VLex (pos s1) (pos s')] end).
    { intros l s2 Hl [= <- <- _]. exists vs0, s1, n, l. repeat split; auto. }
    destruct n as [|n]; cbn [rep_loop delim] in H.
    + apply (Hr [] s1); [constructor|]. exact H.
    + destruct (e_parse (eng n0) c item final s1 []) as [[] s2 m2| |] eqn:He2; try discriminate. cbn [delim] in H.
      destruct (rep_more (eng n0) c item sep n s2 (push vs1 [])) as [[] s3 m3| |] eqn:Hm; try discriminate.
      cbn [delim] in H. apply rep_more_bwd in Hm. destruct Hm as (l & Hm & ->). rewrite push_one in H. cbn [app] in H.
      apply parse_Runs in He2. apply (Hr (one vs1 ++ l) s3); [econstructor; eauto|]. exact H.
  - intros (cv & s1 & n & l & H1 & Hc & H2 & ->). exists 0. unfold rep_run.
    assert (Hl : ev (fun E => rep_loop E c item sep n s1) (Res (OTrue [VSink l]) s' 0)).
    { destruct H2 as [s1|n s1 v s2 l s' H2 H3]; cbn [rep_loop]; [now apply ev_const|].
      apply rep_more_fwd with (acc := push v []) in H3. clear H1. enough_fuel. go; assumption. }
    destruct H1 as [m1 [N1 H1]], Hl as [N2 Hl]. exists (N1 + N2). intros n1 Hn. rewrite H1 by lia.
    cbn [delim]. rewrite Hc, Hl by lia.
    cbn [delim k_fn final]. destruct m; reflexivity.
Qed.


(** *** How a list with a terminator ends *)
(** It gave up: something was skipped from [b] on, and there the limit matches or the input ends. *)
Definition gave_up (lim : token) (s' : st) : Prop :=
  exists b s2, s' = emit (ERCancel (pos s2)) (emit (EToken KError b (pos s2)) s2) /\
    (fst (tk_try lim inp (pos s2)) = true \/ length inp <= pos s2).

Lemma lstt_ends c term item sep lim : forall n ls sp s acc o s' m,
  e_lstt (eng n) c term item sep lim ls sp s acc = Res o s' m ->
  (o = OFalse /\ gave_up lim s') \/ (exists v, o = OTrue v).
Proof.
  induction n as [|n IH]; intros ls sp s acc o s' m H; [discriminate|].
  cbn [RuleModel.eng step e_lstt] in H.
  assert (Hlim : forall b sp s acc, lstt_limit inp (eng n) c term item sep lim b sp s acc = Res o s' m ->
    (o = OFalse /\ gave_up lim s') \/ (exists v, o = OTrue v)).
  { clear H. intros b sp0 s0 acc0 H. unfold lstt_limit, cancel_then in H.
    destruct (e_try (eng n) term (vars s0) (pos s0)) as [[|] tb| |]; try discriminate; [injection H as <- _ _; eauto|].
    destruct (e_cancel (eng n) term tb) as [es|]; [|discriminate].
    destruct (fst (tk_try lim inp (pos (emits es s0))) || eof inp (pos (emits es s0))) eqn:E; [|eapply IH; exact H].
    injection H as <- <- _. left. split; [reflexivity|]. exists b, (emits es s0). split; [reflexivity|].
    apply orb_true_iff in E. destruct E as [E|E]; [auto|]. right. now apply Nat.leb_le. }
  destruct ls; cbn [lstt_step] in H; unfold cancel_then, orelse in H;
    repeat match type of H with
           | match ?x with _ => _ end = _ => destruct x; try discriminate
           | (if ?x then _ else _) = _ => destruct x
           end;
    first [ eapply IH; exact H | eapply Hlim; exact H | injection H as <- _ _; eauto ].
Qed.

Lemma tlist_ends c term item sep lim s o s' : pos s <= length inp ->
  Runs c (RLstT term item sep lim) s o s' ->
  (exists v s2 o', Takes c term s2 o' s' /\ o = after v o') \/
  (o = OFalse /\ gave_up lim s').
Proof.
  intros Hp H. apply Runs_shift in H. destruct H as [m H]. apply ev_at in H. destruct H as [n H].
  cbn [parse_step] in H. unfold p_lstt in H.
  destruct (e_parse (eng n) c item final s []) as [o1 s1 m1| |] eqn:He; try discriminate.
  pose proof (run_d inp prods (eng n) (eng_good inp prods n) c item s true Hp ltac:(discriminate)) as Hd.
  rewrite He in Hd. pose proof (proj1 (dres_Mv _ _ _ _ _ Hd)) as M1.
  assert (Hfin : forall s2 v o s' m,
     match e_try (eng n) term (vars s2) (pos s2) with
     | BR true b => e_finish (eng n) c term b final s2 ([] ++ v)
     | BR false _ => Crash | BNoFuel => NoFuel | BCrash => Crash end = Res o s' m ->
     pos s2 <= length inp -> exists o', Takes c term s2 o' s' /\ o = after v o').
  { intros s2 v o2 s3 m3 Hx Hp2. cbn [app] in Hx.
    destruct (e_try (eng n) term (vars s2) (pos s2)) as [[|] b| |] eqn:Ht; try discriminate.
    assert (m3 = 0) as ->.
    { destruct (ge_finish _ _ _ (eng_good inp prods n) c term b false s2 Hp2 Ht) as (d & Hd2 & _).
      rewrite (Hd2 final v) in Hx by reflexivity. destruct d as [| | |]; cbn [apply] in Hx; try discriminate.
      - now injection Hx as _ _ <-.
      - cbn in Hx. rewrite posts_Res in Hx. now injection Hx as _ _ <-. }
    exact (Takes_args_inv _ _ _ _ _ _ _ _ Hp2 Ht Hx). }
  assert (Hall : forall ls acc, match ls with LTerm | LRecovery => True | _ => False end ->
    delim (e_lstt (eng n) c term item sep lim ls (pos s1) s1 acc)
      (fun s v => match e_try (eng n) term (vars s) (pos s) with
                  | BR true b => e_finish (eng n) c term b final s ([] ++ v)
                  | BR false _ => Crash | BNoFuel => NoFuel | BCrash => Crash end) = Res o s' m ->
    (exists v s2 o', Takes c term s2 o' s' /\ o = after v o') \/ (o = OFalse /\ gave_up lim s')).
  { intros ls acc Hls Hx.
    pose proof (ge_lstt _ _ _ (eng_good inp prods n) c term item sep lim ls (pos s1) s1 acc (Mv_pos _ _ M1) (le_n _)) as Hl.
    destruct (e_lstt (eng n) c term item sep lim ls (pos s1) s1 acc) as [o2 s2 m2| |] eqn:El; try discriminate.
    apply lstt_ends in El. destruct El as [(-> & Hg)|(v & ->)]; cbn [delim] in Hx.
    - injection Hx as <- <- _. auto.
    - left. exists v, s2. apply (Hfin _ _ _ _ _ Hx).
      destruct ls; try contradiction; cbn beta iota in Hl; apply dres_Mv in Hl; exact (Mv_pos _ _ (proj1 Hl)). }
  destruct o1; cbn [orelse] in H; try discriminate; eapply Hall; eauto; exact I.
Qed.

End Lists.
