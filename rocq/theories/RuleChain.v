(** Sequences, times, combinations, flags and captures. *)
From Coq Require Import Permutation.
From Verif Require Import Prelude RuleModel RuleSpec RuleDen RuleGood RuleMono RuleSem RuleLaws RuleLists
  RuleSeq RuleVars RuleInv.
Close Scope N_scope.

(** [flat r]: [r] does not create a context variable that is still there after it (a variable
    lives until the end of the enclosing production).  Parts that are parsed on their own (list
    items, productions, ...) may. *)
Definition flat (r : rule) : bool := calm false false (fun _ => false) true true r.

Lemma calm_all r : calm false false (fun _ => false) false true r = true.
Proof.
  revert r. fix IH 1. intros r.
  assert (Hl : forall rs, forallb (calm false false (fun _ => false) false true) rs = true).
  { fix IHl 1. intros [|x rs]; [reflexivity|]. cbn. rewrite IH. cbn. apply IHl. }
  destruct r; cbn; auto; rewrite ?IH; cbn; auto.
  - destruct sep as [[]|]; cbn; rewrite ?IH; auto.
  - destruct sep as [[]|]; cbn; rewrite ?IH; auto.
  - destruct r; auto.
  - destruct term, rec; rewrite ?IH; auto.
  - destruct rec; rewrite ?IH; auto.
  - destruct sep as [[]|]; cbn; rewrite ?IH; auto.
  - destruct els; rewrite ?IH; cbn; auto.
Qed.

Section Chain.
Variable inp : list N.
Variable prods : nat -> production.
Notation eng := (eng inp prods).
Notation ev := (ev inp prods).
Notation Runs := (Runs inp prods).
Notation Tries := (Tries inp prods).
Notation Cancels := (Cancels inp prods).
Notation Declines := (Declines inp prods).
Notation Finishes := (Finishes inp prods).
Notation Takes := (Takes inp prods).
Notation Matches := (Matches inp prods).
Notation Skips := (Skips inp prods).
Notation is_branch := (is_branch prods).

(** [r], followed by something else, goes on in state [s1] with values [vs]; [l]: variables created
    by [r] that have to be removed in the end. *)
Definition Goes c r s l s1 vs : Prop :=
  T inp l s s1 /\ exists n, is_den false (fun k a => e_parse (eng n) c r k s a) (DNext l s1 vs).
(** [r] does not go on. *)
Definition Stops c r s o s1 : Prop :=
  exists n, is_den false (fun k a => e_parse (eng n) c r k s a) (DStop o s1).
Lemma Goes_Runs c r s l s1 vs : Goes c r s l s1 vs -> Runs c r s (OTrue vs) (unlinks l s1).
Proof.
  intros [_ [n H]]. apply (parse_Runs _ _ n _ _ _ _ _ 0). rewrite (H final []) by reflexivity.
  cbn [apply k_fn final app]. now rewrite posts_Res.
Qed.
Lemma Stops_Runs c r s o s1 : Stops c r s o s1 -> Runs c r s (sto o []) s1.
Proof.
  intros [n H]. apply (parse_Runs _ _ n _ _ _ _ _ 0). now rewrite (H final []) by reflexivity.
Qed.

Lemma seq_nows E c rs : k_nows (seq_cont E c rs final) = false.
Proof. induction rs; cbn; auto. rewrite IHrs. apply andb_false_r. Qed.

Lemma Runs_args_inv n c r s o s' m a : pos s <= length inp ->
  e_parse (eng n) c r final s a = Res o s' m ->
  exists o1, Runs c r s o1 s' /\ o = after a o1.
Proof.
  intros Hp H. destruct (ge_parse _ _ _ (eng_good inp prods n) c r false s Hp) as (d & Hd & _).
  pose proof (Hd final [] eq_refl) as H1. cbn beta in H1.
  rewrite (Hd final a) in H by reflexivity.
  destruct (apply d final []) as [o1 s1 m1| |] eqn:Ha.
  - rewrite (den_after _ _ _ _ a Ha) in H. injection H as <- <- _. exists o1. split; auto.
    eapply parse_Runs; eauto.
  - destruct d; cbn [apply] in *; try discriminate. cbn in Ha. rewrite posts_Res in Ha. discriminate.
  - destruct d; cbn [apply] in *; try discriminate. cbn in Ha. rewrite posts_Res in Ha. discriminate.
Qed.

(** ** Sequences *)
Theorem seq_runs c r rs s o s' : pos s <= length inp ->
  (Runs c (RSeq (r :: rs)) s o s' <->
   (exists p, Stops c r s p s' /\ o = sto p []) \/
   (exists l s1 vs o2 s2, Goes c r s l s1 vs /\ Runs c (RSeq rs) s1 o2 s2 /\ o = after vs o2 /\ s' = unlinks l s2)).
Proof.
  intros Hp. split.
  - intros H. apply Runs_shift in H. destruct H as [m H]. apply ev_at in H. destruct H as [n H].
    cbn [parse_step] in H. unfold p_seq in H. cbn [seq_cont k_fn] in H.
    destruct (ge_parse _ _ _ (eng_good inp prods n) c r false s Hp) as (d & Hd & Hgd).
    rewrite (Hd _ [] (seq_nows _ _ _)) in H. destruct d; cbn [apply] in H; try discriminate.
    + left. injection H as <- <- _. exists o0. split; auto. now exists n.
    + right. cbn [app] in H.
      destruct (k_fn (seq_cont (eng n) c rs final) s0 vs) as [o2 s2 m2| |] eqn:Hk;
        rewrite ?posts_Res, ?posts_NoFuel, ?posts_Crash in H; try discriminate.
      injection H as <- <- _.
      assert (Hk' : e_parse (eng (S n)) c (RSeq rs) final s0 vs = Res o2 s2 m2).
      { cbn [RuleModel.eng step e_parse parse_step]. exact Hk. }
      assert (Hp0 : pos s0 <= length inp) by (exact (T_ok _ _ _ _ Hgd)).
      apply Runs_args_inv in Hk'; auto. destruct Hk' as (o1 & Hr & ->).
      exists l, s0, vs, o1, s2. split; [split; [exact Hgd|now exists n]|auto].
  - intros [(p & [n H] & ->)|(l & s1 & vs & o2 & s2 & [HT [n H]] & Hr & -> & ->)]; apply Runs_shift;
      cbn [parse_step]; unfold p_seq; cbn [seq_cont k_fn].
    + exists 0. exists n. intros n' Hn. pose proof (H _ [] (seq_nows (eng n') c rs)) as H1. cbn beta in H1.
      destruct (mono_parse inp prods c r (seq_cont (eng n') c rs final) s [] n n' Hn) as [Hm|Hm];
        rewrite H1 in Hm; cbn [apply] in Hm; [congruence|discriminate].
    + exists 0.
      assert (Hp1 : pos s1 <= length inp).
      { exact (T_ok _ _ _ _ HT). }
      apply (Runs_args inp prods c (RSeq rs) s1 o2 s2 vs Hp1) in Hr.
      apply ev_shift in Hr. cbn [step e_parse parse_step] in Hr. unfold p_seq in Hr.
      destruct Hr as [N Hr]. exists (n + N). intros n' Hn.
      pose proof (H _ [] (seq_nows (eng n') c rs)) as H1. cbn beta in H1.
      cbn [apply app] in H1. rewrite Hr in H1 by lia. rewrite posts_Res in H1.
      destruct (mono_parse inp prods c r (seq_cont (eng n') c rs final) s [] n n' ltac:(lia)) as [Hm|Hm];
        rewrite H1 in Hm; [congruence|discriminate].
Qed.

Lemma seq_nil c s o s' : Runs c (RSeq []) s o s' <-> o = OTrue [] /\ s' = s.
Proof.
  rewrite Runs_shift. cbn. split.
  - intros [m H]. apply ev_at in H. destruct H as [n H]. injection H as <- <- _. auto.
  - intros [-> ->]. exists 0. now apply ev_const.
Qed.

(** For rules without break_/return_, stopping is failing. *)
Lemma noesc_prov n c r k s a : noesc r = true -> (forall s a, match k_fn k s a with Res OFalse _ _ | NoFuel | Crash => True | _ => False end) ->
  match e_parse (eng n) c r k s a with Res OFalse _ _ | NoFuel | Crash => True | _ => False end.
Proof.
  intros Hr Hk.
  assert (Hpk : RuleSeq.pk (fun o => o = OFalse) k).
  { intros s' a'. specialize (Hk s' a'). destruct (k_fn k s' a') as [[]| |]; cbn; auto; contradiction. }
  pose proof (RuleSeq.pe_parse _ _ _ _ _ (RuleSeq.pe_eng inp prods (fun o => o = OFalse) false false (fun _ => false) eq_refl
     ltac:(discriminate) ltac:(discriminate) ltac:(discriminate) n) c r k s a Hr Hpk) as H.
  destruct (e_parse (eng n) c r k s a) as [[]| |]; cbn in H; auto; discriminate.
Qed.

Lemma stops_noesc c r s p s' : noesc r = true -> Stops c r s p s' -> p = SFalse.
Proof.
  intros Hr [n H].
  pose proof (noesc_prov n c r (Cont false (fun s _ => Res OFalse s 0)) s [] Hr ltac:(intros; exact I)) as Hp.
  rewrite (H _ []) in Hp by reflexivity. now destruct p.
Qed.

Lemma goes_flat c r s l s1 vs : noesc r = true -> flat r = true -> Goes c r s l s1 vs -> l = [].
Proof.
  intros Hr Hf [(es & _ & _ & _ & _ & _ & ys & zs & Hv & Hz & ->) [n H]].
  destruct (goes_same inp prods false false (fun _ => false) ltac:(intros; apply calm_all) ltac:(discriminate)
              (v := true) c r s n _ s1 vs Hf Hr H) as (_ & _ & Hn). specialize (Hn eq_refl).
  rewrite Hv, app_length, (as_len _ _ _ Hz) in Hn. destruct ys; cbn in Hn; [reflexivity|lia].
Qed.

Lemma runs_noesc c r s o s' : pos s <= length inp -> noesc r = true -> Runs c r s o s' ->
  (o = OFalse /\ Stops c r s SFalse s') \/ exists l s1 vs, o = OTrue vs /\ Goes c r s l s1 vs /\ s' = unlinks l s1.
Proof.
  intros Hp Hr H. apply Runs_at in H. destruct H as (n & m & H).
  destruct (ge_parse _ _ _ (eng_good inp prods n) c r false s Hp) as (d & Hd & Hgd).
  rewrite (Hd final []) in H by reflexivity. destruct d; cbn [apply] in H; try discriminate.
  - injection H as <- <- _. assert (o0 = SFalse) by (eapply stops_noesc; [exact Hr|exists n; exact Hd]). subst.
    left. split; [reflexivity|now exists n].
  - cbn [k_fn final app] in H. rewrite posts_Res in H. injection H as <- <- _. right. exists l, s0, vs.
    split; [reflexivity|split; [split; [exact Hgd|now exists n]|reflexivity]].
Qed.

(** A sequence whose first rule neither escapes nor creates variables. *)
Theorem seq_flat c r rs s o s' : pos s <= length inp -> noesc r = true -> flat r = true ->
  (Runs c (RSeq (r :: rs)) s o s' <->
   (Runs c r s OFalse s' /\ o = OFalse) \/
   (exists vs s1 o2, Runs c r s (OTrue vs) s1 /\ Runs c (RSeq rs) s1 o2 s' /\ o = after vs o2)).
Proof.
  intros Hp Hr Hf. rewrite seq_runs by exact Hp. split.
  - intros [(p & H & ->)|(l & s1 & vs & o2 & s2 & H & Hr2 & -> & ->)].
    + left. pose proof (stops_noesc _ _ _ _ _ Hr H) as ->. split; [|reflexivity]. exact (Stops_Runs _ _ _ _ _ H).
    + right. pose proof (goes_flat _ _ _ _ _ _ Hr Hf H) as ->. apply Goes_Runs in H. exists vs, s1, o2. auto.
  - intros [[H ->]|(vs & s1 & o2 & H & Hr2 & ->)].
    + apply runs_noesc in H; auto. destruct H as [[_ H]|(l & s1 & vs & H & _)]; [|discriminate]. left. exists SFalse. auto.
    + apply runs_noesc in H; auto. destruct H as [[H _]|(l & s1' & vs' & [= <-] & H & ->)]; [discriminate|].
      pose proof (goes_flat _ _ _ _ _ _ Hr Hf H) as ->. right. exists [], s1', vs, o2, s'. auto.
Qed.

Lemma seq_true c r rs s vs s' : pos s <= length inp -> noesc r = true -> flat r = true ->
  (Runs c (RSeq (r :: rs)) s (OTrue vs) s' <->
   exists v s1 w, Runs c r s (OTrue v) s1 /\ Runs c (RSeq rs) s1 (OTrue w) s' /\ vs = v ++ w).
Proof.
  intros Hp Hr Hf. rewrite seq_flat by assumption. split.
  - intros [[_ H]|(v & s1 & o2 & H & H2 & Ho)]; [discriminate|]. destruct o2; cbn in Ho; try discriminate.
    injection Ho as ->. eauto 6.
  - intros (v & s1 & w & H1 & H2 & ->). right. exists v, s1, (OTrue w). auto.
Qed.

Lemma Runs_pos c r s o s' : pos s <= length inp -> Runs c r s o s' -> pos s' <= length inp.
Proof. intros Hp H. exact (Mv_pos _ _ _ (Runs_Mv _ _ _ _ _ _ _ Hp H)). Qed.

(** The rules of [rs] one after another; the values are collected. *)
Inductive Chains (c : cx) : list rule -> st -> list (list val) -> st -> Prop :=
| chains_nil s : Chains c [] s [] s
| chains_cons r rs s v s1 l s' : Runs c r s (OTrue v) s1 -> Chains c rs s1 l s' -> Chains c (r :: rs) s (v :: l) s'.

Theorem seq_chains c rs : forallb noesc rs = true -> forallb flat rs = true -> forall s vs s', pos s <= length inp ->
  (Runs c (RSeq rs) s (OTrue vs) s' <-> exists l, Chains c rs s l s' /\ vs = concat l).
Proof.
  induction rs as [|r rs IH]; intros Hr Hf s vs s' Hp.
  - rewrite seq_nil. split.
    + intros [[= ->] ->]. exists []. split; [constructor|reflexivity].
    + intros (l & H & ->). inversion H; subst. auto.
  - cbn in Hr, Hf. apply andb_true_iff in Hr, Hf. destruct Hr as [Hr1 Hr2], Hf as [Hf1 Hf2].
    rewrite seq_true by assumption. split.
    + intros (v & s1 & w & H & H2 & ->). apply (IH Hr2 Hf2) in H2; [|eauto using Runs_pos].
      destruct H2 as (l & Hl & ->). exists (v :: l). split; [econstructor; eauto|reflexivity].
    + intros (l & H & ->). inversion H; subst. exists v, s1, (concat l0).
      split; [assumption|split; [|reflexivity]]. apply (IH Hr2 Hf2); eauto using Runs_pos.
Qed.

(** ** times *)
Lemma one_concat v l : concat (one v ++ l) = v ++ concat l.
Proof. destruct v; reflexivity. Qed.

Definition sep_ok (f : rule -> bool) (sep : option (rule * sepk)) : bool :=
  match sep with None => true | Some sp => f (fst sp) && f (trailing_rule sp) end.

Lemma times_more c r sep : noesc r = true -> flat r = true -> sep_ok noesc sep = true -> sep_ok flat sep = true ->
  forall n s vs s', pos s <= length inp ->
  (Runs c (RSeq (times (S n) r sep)) s (OTrue vs) s' <->
   exists v s1 l, Runs c r s (OTrue v) s1 /\ RepMore inp prods c r sep n s1 l s' /\ vs = v ++ concat l).
Proof.
  intros Hr Hf Hrs Hfs. induction n as [|n IH]; intros s vs s' Hp.
  - destruct sep as [sp|]; cbn [times].
    + cbn in Hrs, Hfs. apply andb_true_iff in Hrs, Hfs. destruct Hrs as [_ Hrs], Hfs as [_ Hfs].
      rewrite seq_true by assumption. split.
      * intros (v & s1 & w & H & H2 & ->). apply seq_true in H2; eauto using Runs_pos.
        destruct H2 as (w1 & s2 & w2 & H2 & H3 & ->). apply seq_nil in H3. destruct H3 as [[= ->] ->].
        exists v, s1, (one w1). repeat split; auto. { now constructor. }
        f_equal. now destruct w1.
      * intros (v & s1 & l & H & H2 & ->). inversion H2; subst.
        exists v, s1, v0. split; [assumption|split].
        -- apply seq_true; eauto using Runs_pos. exists v0, s', []. rewrite app_nil_r. repeat split; auto.
           now apply seq_nil.
        -- f_equal. now destruct v0; cbn; rewrite ?app_nil_r.
    + rewrite seq_true by assumption. split.
      * intros (v & s1 & w & H & H2 & ->). apply seq_nil in H2. destruct H2 as [[= ->] ->].
        exists v, s1, []. repeat split; auto. constructor.
      * intros (v & s1 & l & H & H2 & ->). inversion H2; subst. exists v, s', []. repeat split; auto.
        now apply seq_nil.
  - change (times (S (S n)) r sep) with
      (match sep with None => r :: times (S n) r sep | Some sp => r :: fst sp :: times (S n) r sep end).
    destruct sep as [[sr k]|]; cbn [fst].
    + cbn in Hrs, Hfs. apply andb_true_iff in Hrs, Hfs. destruct Hrs as [Hrs _], Hfs as [Hfs _].
      rewrite seq_true by assumption. split.
      * intros (v & s1 & w & H & H2 & ->). apply seq_true in H2; eauto using Runs_pos.
        destruct H2 as (w1 & s2 & w2 & H2 & H3 & ->). apply IH in H3; [|eauto using Runs_pos].
        destruct H3 as (v2 & s3 & l & H3 & H4 & ->). exists v, s1, (one w1 ++ one v2 ++ l).
        repeat split; auto; [econstructor; eauto|]. now rewrite !one_concat.
      * intros (v & s1 & l & H & H2 & ->). inversion H2; subst.
        exists v, s1, (w ++ v0 ++ concat l0). split; [assumption|split].
        -- apply seq_true; eauto using Runs_pos. exists w, s2, (v0 ++ concat l0). repeat split; auto.
           apply IH; [eauto using Runs_pos|]. eauto 7.
        -- now rewrite !one_concat.
    + rewrite seq_true by assumption. split.
      * intros (v & s1 & w & H & H2 & ->). apply IH in H2; [|eauto using Runs_pos].
        destruct H2 as (v2 & s3 & l & H3 & H4 & ->). exists v, s1, (one v2 ++ l).
        repeat split; auto; [econstructor; eauto|]. now rewrite !one_concat.
      * intros (v & s1 & l & H & H2 & ->). inversion H2; subst.
        exists v, s1, (v0 ++ concat l0). split; [assumption|split].
        -- apply IH; [eauto using Runs_pos|]. eauto 7.
        -- now rewrite !one_concat.
Qed.

Theorem times_runs c n r sep s vs s' : n <> 0 -> pos s <= length inp ->
  noesc r = true -> flat r = true -> sep_ok noesc sep = true -> sep_ok flat sep = true ->
  (Runs c (RTimes n r sep) s (OTrue vs) s' <->
   exists l, Repeated inp prods c r sep n s l s' /\ vs = concat l).
Proof.
  intros Hn Hp H1 H2 H3 H4. destruct n as [|n]; [easy|]. unfold RTimes. rewrite times_more by assumption. split.
  - intros (v & s1 & l & H & Hm & ->). exists (one v ++ l). rewrite one_concat. split; auto. econstructor; eauto.
  - intros (l & H & ->). inversion H; subst. rewrite one_concat. eauto 6.
Qed.


(** ** Combinations *)
(** The alternative for item [i]: the rule, then the end of the item. *)
Definition comb_item (i : nat) (r : rule) : rule :=
  match r with RBr c l => RBr c (l ++ [RCombIt i]) | r => RBr r [RCombIt i] end.

Lemma comb_alts_map i rs : comb_alts i rs = map (fun p => comb_item (fst p) (snd p)) (combine (seq i (length rs)) rs).
Proof. revert i. induction rs as [|r rs IH]; intros i; [reflexivity|]. cbn. rewrite <- IH. now destruct r. Qed.

Lemma item_tries i r s ok b : Tries (comb_item i r) s ok b <-> Tries r s ok b.
Proof.
  unfold RuleSem.Tries, comb_item. destruct r; cbn; try (rewrite ev_shift; reflexivity).
  rewrite ev_shift. symmetry. rewrite ev_shift. reflexivity.
Qed.
Lemma item_cancels i r b es : Cancels (comb_item i r) b es <-> Cancels r b es.
Proof.
  unfold RuleSem.Cancels, comb_item. destruct r; cbn; try (rewrite ev_shift; reflexivity).
  rewrite ev_shift. symmetry. rewrite ev_shift. reflexivity.
Qed.
Lemma item_declines i r s es : Declines (comb_item i r) s es <-> Declines r s es.
Proof.
  split; intros (b & H1 & H2); exists b.
  - rewrite item_tries in H1. rewrite item_cancels in H2. split; assumption.
  - split; [apply item_tries|apply item_cancels]; assumption.
Qed.

Lemma fin_item n c r b s k i : pos s <= length inp -> noesc r = true ->
  e_try (eng n) r (vars s) (pos s) = BR true b -> k_nows k = false ->
  (forall s a, k_fn k s a = Res (OItem i a) s 0) ->
  match e_finish (eng n) c r b k s [], e_finish (eng n) c r b final s [] with
  | Res (OItem j vs) s' _, Res (OTrue vs') s'' _ => j = i /\ vs = vs' /\ s' = s''
  | Res OFalse s' _, Res OFalse s'' _ => s' = s''
  | NoFuel, NoFuel | Crash, Crash => True
  | _, _ => False
  end.
Proof.
  intros Hp Hr Ht Hk Hki.
  destruct (ge_finish _ _ _ (eng_good inp prods n) c r b false s Hp Ht) as (d & Hd & _).
  assert (Hno : forall o s', d = DStop o s' -> o = SFalse).
  { intros o s' ->. set (k0 := Cont false (fun s _ => Res OFalse s 0)).
    pose proof (RuleSeq.pe_finish _ _ _ _ _ (RuleSeq.pe_eng inp prods (fun o => o = OFalse) false false (fun _ => false) eq_refl
       ltac:(discriminate) ltac:(discriminate) ltac:(discriminate) n) c r b k0 s [] Hr ltac:(intros ? ?; exact eq_refl)) as H.
    rewrite (Hd k0 []) in H by reflexivity. destruct o; cbn in H; auto; discriminate. }
  rewrite (Hd k []), (Hd final []) by auto.
  destruct d as [o s'|l s' vs| |]; cbn [apply]; auto.
  - rewrite (Hno _ _ eq_refl). reflexivity.
  - rewrite Hki. cbn [k_fn final app]. rewrite !posts_Res. auto.
Qed.

Lemma seq_cont_app E c l l' k : seq_cont E c (l ++ l') k = seq_cont E c l (seq_cont E c l' k).
Proof. induction l; cbn; auto. now rewrite IHl. Qed.

Lemma item_finish_eq n i c r b s : exists k m, n <= m /\ m <= S n /\ k_nows k = false /\
  (n <> 0 -> forall s a, k_fn k s a = Res (OItem i a) s 0) /\
  e_finish (eng (S n)) c (comb_item i r) b final s [] = e_finish (eng m) c r b k s [].
Proof.
  destruct r; try (
    exists (seq_cont (eng n) c [RCombIt i] final), n; repeat split; auto;
    destruct n; [easy|]; reflexivity).
  exists (seq_cont (eng n) c [RCombIt i] final), (S n). repeat split; auto.
  - intros Hn s0 a. destruct n; [easy|]. reflexivity.
  - cbn [comb_item RuleModel.eng step e_finish finish_step]. now rewrite seq_cont_app.
Qed.

Lemma item_finishes i c r b s o s' : pos s <= length inp -> noesc r = true -> Tries r s true b ->
  (Finishes c (comb_item i r) b s o s' <->
   (exists vs, o = OItem i vs /\ Finishes c r b s (OTrue vs) s') \/ (o = OFalse /\ Finishes c r b s OFalse s')).
Proof.
  intros Hp Hr [N Ht]. split.
  - intros [m [M H]]. set (n := S (N + M)).
    destruct (item_finish_eq n i c r b s) as (k & m' & Hn & _ & Hk & Hki & Heq).
    pose proof (H (S n) ltac:(lia)) as H'. cbn beta in H'. rewrite Heq in H'.
    pose proof (fin_item m' c r b s k i Hp Hr ltac:(apply Ht; lia) Hk ltac:(apply Hki; lia)) as Hf.
    rewrite H' in Hf.
    destruct (e_finish (eng m') c r b final s []) as [[] s2 m2| |] eqn:He; try (destruct o; contradiction);
      apply finish_Finishes in He.
    + destruct o; try contradiction. subst. auto.
    + destruct o; try contradiction. destruct Hf as (-> & -> & ->). left. eauto.
  - intros H.
    assert (exists o1, Finishes c r b s o1 s' /\
      match o1 with OFalse => o = OFalse | OTrue vs => o = OItem i vs | _ => False end) as (o1 & [m [M H1]] & Ho).
    { destruct H as [(vs & -> & H)|[-> H]]; [exists (OTrue vs)|exists OFalse]; split; auto. }
    exists 0. exists (S (S (N + M))). intros n Hn. destruct n as [|n]; [lia|].
    destruct (item_finish_eq n i c r b s) as (k & m' & Hn' & _ & Hk & Hki & Heq). rewrite Heq.
    pose proof (fin_item m' c r b s k i Hp Hr ltac:(apply Ht; lia) Hk ltac:(apply Hki; lia)) as Hf.
    rewrite (H1 m') in Hf by lia.
    destruct (ge_finish _ _ _ (eng_good inp prods m') c r b false s Hp ltac:(apply Ht; lia)) as (d & Hd & _).
    assert (Hz : forall o s' m, e_finish (eng m') c r b k s [] = Res o s' m -> m = 0).
    { intros o0 s0 m0 X. rewrite (Hd k []) in X by exact Hk. destruct d; cbn [apply] in X; try discriminate; [congruence|].
      rewrite Hki in X by lia. rewrite posts_Res in X. congruence. }
    destruct (e_finish (eng m') c r b k s []) as [ok sk mk| |] eqn:Hek; [|destruct o1; contradiction|destruct o1; contradiction].
    rewrite (Hz _ _ _ eq_refl). destruct o1, ok; subst; try contradiction; auto.
    destruct Hf as (-> & -> & ->). reflexivity.
Qed.

(** Which alternative of the choice an item belongs to: the first whose condition matches. *)
Definition Picks c (rs : list rule) s i o s' : Prop :=
  exists pre r post es b, rs = pre ++ r :: post /\ length pre = i /\ Skips pre s es /\ Tries r s true b /\
    Finishes c r b (emits es s) o s'.

Lemma comb_skips i rs s es : Skips (comb_alts i rs) s es <-> Skips rs s es.
Proof.
  revert i es. induction rs as [|r rs IH]; intros i es; cbn; [reflexivity|].
  assert (E1 : match r with RBr c l => RBr c (l ++ [RCombIt i]) :: comb_alts (S i) rs
               | _ => RBr r [RCombIt i] :: comb_alts (S i) rs end = comb_item i r :: comb_alts (S i) rs)
    by now destruct r.
  rewrite E1. split; intros H; inversion H as [|? ? ? ? ? Hd Hs]; subst; constructor.
  - now rewrite item_declines in Hd.
  - now rewrite IH in Hs.
  - now apply item_declines.
  - now apply IH.
Qed.

Lemma comb_alts_app i l l' : comb_alts i (l ++ l') = comb_alts i l ++ comb_alts (i + length l) l'.
Proof.
  revert i. induction l as [|r l IH]; intros i; cbn [app length]; [now rewrite Nat.add_0_r|].
  cbn [comb_alts]. rewrite IH, Nat.add_succ_r. destruct r; reflexivity.
Qed.
Lemma comb_alts_cons i r l : comb_alts i (r :: l) = comb_item i r :: comb_alts (S i) l.
Proof. destruct r; reflexivity. Qed.
Lemma comb_alts_length i l : length (comb_alts i l) = length l.
Proof. revert i. induction l; intros; rewrite ?comb_alts_cons; cbn; auto. Qed.

Lemma comb_alts_split i l pre r post : comb_alts i l = pre ++ r :: post ->
  exists pre' r' post', l = pre' ++ r' :: post' /\ pre = comb_alts i pre' /\ r = comb_item (i + length pre') r' /\
    post = comb_alts (i + S (length pre')) post' /\ length pre' = length pre.
Proof.
  revert i pre. induction l as [|x l IH]; intros i pre H.
  - destruct pre; discriminate.
  - rewrite comb_alts_cons in H. destruct pre as [|y pre]; injection H as <- H.
    + exists [], x, l. rewrite Nat.add_0_r. replace (i + S (length (@nil rule))) with (S i) by (cbn; lia). auto.
    + apply IH in H. destruct H as (pre' & r' & post' & -> & -> & -> & -> & Hl).
      exists (x :: pre'), r', post'. rewrite comb_alts_cons. cbn [length app].
      replace (i + S (length pre')) with (S i + length pre') by lia.
      replace (i + S (S (length pre'))) with (S i + S (length pre')) by lia. auto 6.
Qed.

Lemma Skips_app pre post s es : Skips (pre ++ post) s es <->
  exists e1 e2, Skips pre s e1 /\ Skips post s e2 /\ es = e1 ++ e2.
Proof.
  revert es. induction pre as [|r pre IH]; intros es; cbn [app].
  - split; [intros H; exists [], es; repeat split; auto; constructor|].
    intros (e1 & e2 & H1 & H2 & ->). inversion H1; subst. exact H2.
  - split.
    + intros H. inversion H as [|? ? ? e0 ? Hd Hs]; subst. apply IH in Hs. destruct Hs as (e1 & e2 & H1 & H3 & ->).
      exists (e0 ++ e1), e2. rewrite app_assoc. repeat split; auto. now constructor.
    + intros (e1 & e2 & H1 & H2 & ->). inversion H1; subst. rewrite <- app_assoc. constructor; auto.
      apply IH. eauto.
Qed.

Definition els_alts (els : option rule) : list rule := match els with None => [] | Some e => [e] end.

(** One round of a combination with at least two alternatives. *)
Lemma comb_round c els rs s o s' : pos s <= length inp -> forallb noesc rs = true ->
  2 <= length (rs ++ els_alts els) ->
  (Runs c (comb_choice els rs) s o s' <->
   (exists i vs, o = OItem i vs /\ Picks c rs s i (OTrue vs) s') \/
   (exists i, o = OFalse /\ Picks c rs s i OFalse s') \/
   (exists e es b, els = Some e /\ Skips rs s es /\ Tries e s true b /\ Finishes c e b (emits es s) o s') \/
   (o = OFalse /\ exists es, Skips (rs ++ els_alts els) s es /\ s' = emit (EError TExhausted (pos s) (pos s)) (emits es s))).
Proof.
  intros Hp Hn H2. unfold comb_choice. fold (els_alts els).
  assert (E1 : alts_of (comb_alts 0 rs ++ els_alts els) = RChc (comb_alts 0 rs ++ els_alts els)).
  { unfold alts_of. destruct (comb_alts 0 rs ++ els_alts els) as [|x [|y l]] eqn:E; auto.
    apply (f_equal (@length _)) in E. rewrite app_length, comb_alts_length in E. rewrite app_length in H2. cbn in E. lia. }
  rewrite E1, choice_runs.
  assert (Hsk : forall es, Skips (comb_alts 0 rs ++ els_alts els) s es <-> Skips (rs ++ els_alts els) s es).
  { intros es. rewrite !Skips_app. split; intros (e1 & e2 & X1 & X2 & ->); exists e1, e2; repeat split; auto;
      now apply (comb_skips 0). }
  split.
  - intros [(pre & r & post & es & b & E & H3 & H4 & H5)|(Hu & -> & es & H & ->)].
    + assert (Hcase : (exists pre' , pre = comb_alts 0 rs ++ pre' /\ els_alts els = pre' ++ r :: post) \/
                      (exists post', comb_alts 0 rs = pre ++ r :: post')).
      { clear -E. revert pre E. generalize (comb_alts 0 rs). intros l. induction l as [|x l IH]; intros pre E.
        - left. exists pre. auto.
        - destruct pre as [|y pre]; injection E as <- E.
          + right. exists l. reflexivity.
          + apply IH in E. destruct E as [(pre' & -> & E)|(post' & ->)]; [left; exists pre'; split; [reflexivity|exact E]|right; exists post'; reflexivity]. }
      destruct Hcase as [(pre' & -> & E')|(post' & E')].
      * destruct els as [e|]; cbn in E'; [|now destruct pre'].
        destruct pre' as [|? []]; try discriminate. injection E' as <- <-. rewrite app_nil_r in H3.
        rewrite comb_skips in H3. right. right. left. exists e, es, b. auto.
      * apply comb_alts_split in E'. destruct E' as (pre' & r' & post2 & -> & -> & -> & _ & Hl). cbn [Nat.add] in *.
        rewrite comb_skips in H3. rewrite item_tries in H4.
        assert (Hr' : noesc r' = true) by (rewrite forallb_app in Hn; cbn in Hn; rewrite !andb_true_iff in Hn; tauto).
        apply item_finishes in H5; auto.
        destruct H5 as [(vs & -> & H5)|(-> & H5)].
        -- left. exists (length pre'), vs. split; auto. exists pre', r', post2, es, b. auto.
        -- right. left. exists (length pre'). split; auto. exists pre', r', post2, es, b. auto.
    + right. right. right. split; auto. exists es. apply Hsk in H. auto.
  - assert (Hpick : forall i o1, match o1 with OTrue vs => o = OItem i vs | OFalse => o = OFalse | _ => False end ->
       Picks c rs s i o1 s' -> exists pre r post es b, comb_alts 0 rs ++ els_alts els = pre ++ r :: post /\
         Skips pre s es /\ Tries r s true b /\ Finishes c r b (emits es s) o s').
    { intros i o1 Ho (pre & r & post & es & b & -> & <- & H3 & H4 & H5).
      exists (comb_alts 0 pre), (comb_item (length pre) r), (comb_alts (S (length pre)) post ++ els_alts els), es, b.
      rewrite comb_alts_app, comb_alts_cons, <- app_assoc. repeat split; auto.
      - now apply comb_skips.
      - now apply item_tries.
      - assert (Hr' : noesc r = true) by (rewrite forallb_app in Hn; cbn in Hn; rewrite !andb_true_iff in Hn; tauto).
        apply item_finishes; auto. destruct o1; try contradiction; subst; eauto. }
    intros [(i & vs & -> & H)|[(i & -> & H)|[(e & es & b & -> & H3 & H4 & H5)|(-> & es & H & ->)]]].
    + left. eapply (Hpick i (OTrue vs)); eauto.
    + left. eapply (Hpick i OFalse); eauto.
    + left. exists (comb_alts 0 rs), e, [], es, b. repeat split; auto. now apply comb_skips.
    + right. apply Hsk in H. repeat split; eauto using Skips_cond.
Qed.

(** The rounds: [seen] are the items parsed so far (latest first); the items and their values in
    order. *)
Inductive Comb (c : cx) (dup : etag) (alts : rule) (n : nat) : list nat -> st -> list (nat * list val) -> st -> Prop :=
| comb_all seen s : n <= length seen -> Comb c dup alts n seen s [] s
| comb_stop seen s s' : length seen < n -> Runs c alts s OBreak s' -> Comb c dup alts n seen s [] s'
| comb_new seen s i vs s1 l s' : length seen < n -> Runs c alts s (OItem i vs) s1 -> ~ In i seen ->
    Comb c dup alts n (i :: seen) s1 l s' -> Comb c dup alts n seen s ((i, vs) :: l) s'
| comb_dup seen s i vs s1 l s' : length seen < n -> Runs c alts s (OItem i vs) s1 -> In i seen ->
    Comb c dup alts n seen (emit (EError dup (pos s) (pos s1)) s1) l s' -> Comb c dup alts n seen s l s'.

(** The handled array for the items [seen]. *)
Definition handled (n : nat) (seen : list nat) : list bool :=
  map (fun i => existsb (Nat.eqb i) seen) (seq 0 n).

Lemma handled_nth n seen i : i < n -> nth i (handled n seen) false = existsb (Nat.eqb i) seen.
Proof.
  intros H. unfold handled. rewrite nth_indep with (d' := existsb (Nat.eqb 0) seen) by now rewrite map_length, seq_length.
  rewrite map_nth with (f := fun i => existsb (Nat.eqb i) seen). rewrite seq_nth by assumption. reflexivity.
Qed.
Lemma set_nth_length i l : length (set_nth i l) = length l.
Proof. revert i. induction l; intros [|i]; cbn; auto. Qed.
Lemma set_nth_nth i j l : i < length l -> nth j (set_nth i l) false = (j =? i) || nth j l false.
Proof.
  revert i j. induction l as [|b l IH]; intros [|i] [|j] H; cbn in *; auto; try lia.
  apply IH. lia.
Qed.
Lemma handled_set n seen i : i < n -> set_nth i (handled n seen) = handled n (i :: seen).
Proof.
  intros H. assert (Hl : forall x, length (handled n x) = n) by (intros; unfold handled; now rewrite map_length, seq_length).
  apply nth_ext with (d := false) (d' := false); [now rewrite set_nth_length, !Hl|].
  intros j Hj. rewrite set_nth_length, Hl in Hj. rewrite set_nth_nth by now rewrite Hl.
  rewrite !handled_nth by assumption. reflexivity.
Qed.
Lemma handled_nil n : repeat false n = handled n [].
Proof. unfold handled. cbn. generalize 0. induction n; intros k; cbn; auto. f_equal. apply IHn. Qed.
Lemma existsb_in i seen : existsb (Nat.eqb i) seen = true <-> In i seen.
Proof. rewrite existsb_exists. split; [intros (x & H & E); apply Nat.eqb_eq in E; now subst|intros H; exists i; now rewrite Nat.eqb_refl]. Qed.

Definition items_ok (n : nat) c alts : Prop := forall s i vs s', Runs c alts s (OItem i vs) s' -> i < n.

Definition values (l : list (nat * list val)) : list (list val) := flat_map (fun p => one (snd p)) l.

Lemma comb_fwd c dup alts n seen s l s' : items_ok n c alts -> Comb c dup alts n seen s l s' ->
  forall acc, ev (fun E => e_comb E c dup alts n (length seen) (handled n seen) s acc)
    (Res (OTrue [VSink (acc ++ values l)]) s' 0).
Proof.
  intros Hok. induction 1 as [seen s H|seen s s' H H1|seen s i vs s1 l s' H H1 Hi H2 IH|seen s i vs s1 l s' H H1 Hi H2 IH];
    intros acc; apply ev_shift; cbn [step e_comb]; unfold comb_step.
  - destruct (Nat.leb_spec n (length seen)); [|lia]. cbn. rewrite app_nil_r. now apply ev_const.
  - destruct (Nat.leb_spec n (length seen)); [lia|]. cbn. rewrite app_nil_r.
    destruct H1 as [m [N H1]]. exists N. intros n' Hn. now rewrite H1.
  - destruct (Nat.leb_spec n (length seen)); [lia|].
    assert (Hin : i < n) by (eapply Hok; eauto).
    specialize (IH (push vs acc)). destruct IH as [M IH], H1 as [m [N H1]]. exists (N + M). intros n' Hn.
    rewrite H1, handled_nth by lia. destruct (existsb (Nat.eqb i) seen) eqn:He; [now apply existsb_in in He|].
    rewrite handled_set by assumption. rewrite push_one, <- app_assoc in IH. rewrite push_one. apply IH. lia.
  - destruct (Nat.leb_spec n (length seen)); [lia|].
    assert (Hin : i < n) by (eapply Hok; eauto).
    specialize (IH acc). destruct IH as [M IH], H1 as [m [N H1]]. exists (N + M). intros n' Hn.
    rewrite H1, handled_nth by lia. apply existsb_in in Hi. rewrite Hi. apply IH. lia.
Qed.

Lemma comb_bwd c dup alts n : items_ok n c alts -> forall n0 seen s acc vs s' m,
  e_comb (eng n0) c dup alts n (length seen) (handled n seen) s acc = Res (OTrue vs) s' m ->
  exists l, Comb c dup alts n seen s l s' /\ vs = [VSink (acc ++ values l)].
Proof.
  intros Hok. induction n0 as [|n0 IH]; intros seen s acc vs s' m; [discriminate|].
  cbn [RuleModel.eng step e_comb]. unfold comb_step.
  destruct (Nat.leb_spec n (length seen)).
  - intros [= <- <- _]. exists []. rewrite app_nil_r. split; auto. now constructor.
  - destruct (e_parse (eng n0) c alts final s []) as [[] s1 m1| |] eqn:He; try discriminate; apply parse_Runs in He.
    + assert (Hin : i < n) by (eapply Hok; eauto). rewrite handled_nth by assumption.
      destruct (existsb (Nat.eqb i) seen) eqn:Hx.
      * intros H1. apply IH in H1. destruct H1 as (l & H1 & ->). exists l. split; auto.
        eapply comb_dup; eauto. now apply existsb_in.
      * rewrite handled_set by assumption. intros H1. apply (IH (i :: seen)) in H1.
        destruct H1 as (l & H1 & ->). exists ((i, vs0) :: l). split.
        -- eapply comb_new; eauto. rewrite <- existsb_in, Hx. discriminate.
        -- rewrite push_one, <- app_assoc. reflexivity.
    + intros [= <- <- _]. exists []. rewrite app_nil_r. split; auto. now apply comb_stop.
Qed.

Theorem comb_runs c dup els rs s vs s' : items_ok (length rs) c (comb_choice els rs) ->
  (Runs c (RComb dup els rs) s (OTrue vs) s' <->
   exists l, Comb c dup (comb_choice els rs) (length rs) [] s l s' /\ vs = [VSink (values l)]).
Proof.
  intros Hok. rewrite Runs_shift. cbn [parse_step]. rewrite handled_nil. split.
  - intros [m H]. apply ev_at in H. destruct H as [n H].
    destruct (e_comb (eng n) c dup (comb_choice els rs) (length rs) 0 (handled (length rs) []) s []) as [[] s1 m1| |] eqn:He;
      try discriminate.
    cbn in H. injection H as <- <- _. apply (comb_bwd _ _ _ _ Hok n []) in He. exact He.
  - intros (l & H & ->). apply comb_fwd with (acc := []) in H; auto. cbn [app length] in H. exists 0.
    destruct H as [N H]. exists N. intros n Hn. rewrite H by lia. reflexivity.
Qed.

Lemma Comb_new c dup alts n seen s l s' : items_ok n c alts -> Comb c dup alts n seen s l s' ->
  NoDup (map fst l) /\ (forall i, In i (map fst l) -> ~ In i seen /\ i < n).
Proof.
  intros Hok. induction 1 as [seen s H|seen s s' H H1|seen s i vs s1 l s' H H1 Hi H2 IH|seen s i vs s1 l s' H H1 Hi H2 IH];
    cbn; auto.
  - split; [constructor|contradiction].
  - split; [constructor|contradiction].
  - destruct IH as [IH1 IH2]. split.
    + constructor; auto. intros X. apply IH2 in X. cbn in X. tauto.
    + intros j [<-|X]; [split; auto; eapply Hok; eauto|]. apply IH2 in X. cbn in X. tauto.
Qed.

Lemma Comb_count c dup alts n seen s l s' : (forall s s', ~ Runs c alts s OBreak s') ->
  Comb c dup alts n seen s l s' -> n <= length seen + length l.
Proof.
  intros Hb. induction 1 as [seen s H|seen s s' H H1|seen s i vs s1 l s' H H1 Hi H2 IH|seen s i vs s1 l s' H H1 Hi H2 IH];
    cbn in *; try lia. now apply Hb in H1.
Qed.

Lemma comb_complete c dup alts n s l s' : items_ok n c alts -> (forall s s', ~ Runs c alts s OBreak s') ->
  Comb c dup alts n [] s l s' -> Permutation (map fst l) (seq 0 n).
Proof.
  intros Hok Hb H. pose proof (Comb_new _ _ _ _ _ _ _ _ Hok H) as [Hnd Hin].
  pose proof (Comb_count _ _ _ _ _ _ _ _ Hb H) as Hc. cbn in Hc.
  apply NoDup_Permutation_bis; auto.
  - rewrite map_length, seq_length. exact Hc.
  - intros i Hi. apply in_seq. apply Hin in Hi. lia.
Qed.

(** The items of the choice are those of the combination, unless the rules contain the ends of
    items themselves. *)
Definition no_items (r : rule) : bool := tame true true (fun _ => false) r.

Lemma tame_sub b r i b' r' i' x : (b = true -> b' = true) -> (r = true -> r' = true) ->
  (forall j, i j = true -> i' j = true) -> tame b r i x = true -> tame b' r' i' x = true.
Proof.
  intros Hb Hr Hi. revert x. fix IH 1. intros x.
  assert (Hl : forall rs, forallb (tame b r i) rs = true -> forallb (tame b' r' i') rs = true).
  { fix IHl 1. intros [|y rs]; [reflexivity|]. cbn. rewrite !andb_true_iff. intros [H1 H2]. split; [now apply IH|now apply IHl]. }
  destruct x; cbn; auto; rewrite ?andb_true_iff; intros H; repeat match goal with H : _ /\ _ |- _ => destruct H end; repeat split; auto.
  - destruct r0; auto.
  - destruct term; auto.
  - destruct rec; auto.
  - destruct rec; auto.
Qed.

Lemma comb_tame bk n els rs : forallb (tame bk true (fun _ => false)) rs = true -> 
  match els with Some e => tame bk true (fun _ => false) e | None => true end = true -> n = length rs ->
  tame bk true (fun i => i <? n) (comb_choice els rs) = true.
Proof.
  intros Hrs He Hn. unfold comb_choice. fold (els_alts els).
  assert (Hw : forall x, tame bk true (fun _ => false) x = true -> tame bk true (fun i => i <? n) x = true).
  { intros x. now apply tame_sub. }
  assert (Ha : forall m l, m + length l <= n -> forallb (tame bk true (fun _ => false)) l = true ->
     forallb (tame bk true (fun i => i <? n)) (comb_alts m l) = true).
  { intros m l. revert m. induction l as [|x l IH]; intros m Hm Hl; [reflexivity|].
    rewrite comb_alts_cons. cbn [forallb] in *. apply andb_true_iff in Hl. destruct Hl as [Hx Hl]. cbn in Hm.
    rewrite IH by (auto; lia). rewrite andb_true_r. apply Hw in Hx. unfold comb_item.
    assert (Hmn : m <? n = true) by (apply Nat.ltb_lt; lia).
    destruct x; cbn [tame forallb] in *; rewrite ?forallb_app; cbn [forallb tame]; rewrite ?Hmn, ?andb_true_r; auto. }
  assert (H : forallb (tame bk true (fun i => i <? n)) (comb_alts 0 rs ++ els_alts els) = true).
  { rewrite forallb_app, Ha by (auto; lia). destruct els; cbn; auto. now rewrite Hw. }
  unfold alts_of. destruct (comb_alts 0 rs ++ els_alts els) as [|x [|y l]]; auto. cbn in H. now rewrite andb_true_r in H.
Qed.

Lemma comb_items_ok c els rs : forallb no_items rs = true -> match els with Some e => no_items e | None => true end = true ->
  items_ok (length rs) c (comb_choice els rs).
Proof.
  intros H1 H2 s i vs s' H. apply Runs_at in H. destruct H as (n & m & H).
  pose proof (comb_tame true (length rs) els rs H1 H2 eq_refl) as Ht.
  pose proof (RuleSeq.pe_parse _ _ _ _ _ (RuleSeq.pe_eng inp prods
     (fun o => match o with OItem i _ => i < length rs | _ => True end) true true (fun i => i <? length rs) I
     ltac:(intros; exact I) ltac:(intros; exact I) ltac:(intros j Hj vs0; now apply Nat.ltb_lt) n)
     c _ final s [] Ht ltac:(intros ? ?; exact I)) as Hp.
  rewrite H in Hp. exact Hp.
Qed.

Lemma comb_no_break c els rs : forallb (tame false true (fun _ => false)) rs = true ->
  match els with Some e => tame false true (fun _ => false) e | None => true end = true ->
  forall s s', ~ Runs c (comb_choice els rs) s OBreak s'.
Proof.
  intros H1 H2 s s' H. apply Runs_at in H. destruct H as (n & m & H).
  pose proof (comb_tame false (length rs) els rs H1 H2 eq_refl) as Ht.
  pose proof (RuleSeq.pe_parse _ _ _ _ _ (RuleSeq.pe_eng inp prods
     (fun o => o <> OBreak) false true (fun i => i <? length rs) ltac:(discriminate)
     ltac:(discriminate) ltac:(discriminate) ltac:(discriminate) n)
     c _ final s [] Ht ltac:(intros ? ?; discriminate)) as Hp.
  rewrite H in Hp. now apply Hp.
Qed.

(** ** Flags *)
(** The flag rule is parsed as long as its condition matches; [z] is the value so far. *)
Inductive Flags (c : cx) (r : rule) (t : etag) : Z -> st -> list Z -> st -> Prop :=
| flags_end z s es : Declines r s es -> Flags c r t z s [] (emits es s)
| flags_new z s f s1 l s' : Takes c r s (OTrue [VInt f]) s1 -> Z.land z f <> f ->
    Flags c r t (Z.lor z f) s1 l s' -> Flags c r t z s (f :: l) s'
| flags_dup z s f s1 l s' : Takes c r s (OTrue [VInt f]) s1 -> Z.land z f = f ->
    Flags c r t (Z.lor z f) (emit (EError t (pos s) (pos s1)) s1) l s' -> Flags c r t z s (f :: l) s'.

Lemma flags_fwd c r t z s l s' : Flags c r t z s l s' ->
  ev (fun E => e_flags E c r t z s) (Res (OTrue [VInt (fold_left Z.lor l z)]) s' 0).
Proof.
  induction 1 as [z s es (b & H1 & H2)|z s f s1 l s' (b & H1 & H2) Hf H3 IH|z s f s1 l s' (b & H1 & H2) Hf H3 IH];
    apply ev_shift; cbn [step e_flags fold_left]; unfold flags_step.
  - destruct H1 as [N H1], H2 as [M H2]. exists (N + M). intros n Hn. rewrite H1 by lia. unfold cancel_then.
    rewrite H2 by lia. reflexivity.
  - destruct H1 as [N H1], H2 as [m [M H2]], IH as [K IH]. exists (N + M + K). intros n Hn. rewrite H1 by lia.
    rewrite H2 by lia. cbn [delim]. destruct (Z.eqb_spec (Z.land z f) f); [easy|]. apply IH. lia.
  - destruct H1 as [N H1], H2 as [m [M H2]], IH as [K IH]. exists (N + M + K). intros n Hn. rewrite H1 by lia.
    rewrite H2 by lia. cbn [delim]. destruct (Z.eqb_spec (Z.land z f) f); [|easy]. apply IH. lia.
Qed.

Lemma flags_bwd c r t : forall n z s vs s' m, e_flags (eng n) c r t z s = Res (OTrue vs) s' m ->
  exists l, Flags c r t z s l s' /\ vs = [VInt (fold_left Z.lor l z)].
Proof.
  induction n as [|n IH]; intros z s vs s' m; [discriminate|]. cbn [RuleModel.eng step e_flags]. unfold flags_step.
  destruct (e_try (eng n) r (vars s) (pos s)) as [[|] b| |] eqn:Ht; try discriminate; apply try_Tries in Ht.
  - destruct (e_finish (eng n) c r b final s []) as [[] s1 m1| |] eqn:Hf; try discriminate; cbn [delim].
    apply finish_Finishes in Hf.
    destruct vs0 as [|[] [|]]; try discriminate.
    destruct (Z.eqb_spec (Z.land z z0) z0); intros H; apply IH in H; destruct H as (l & H & ->); exists (z0 :: l);
      (split; [|reflexivity]).
    + eapply flags_dup; eauto. exists b. auto.
    + eapply flags_new; eauto. exists b. auto.
  - unfold cancel_then. destruct (e_cancel (eng n) r b) as [es|] eqn:Hc; [|discriminate].
    apply cancel_Cancels in Hc. intros [= <- <- _]. exists []. split; [|reflexivity]. constructor. exists b. auto.
Qed.

Theorem flags_runs c r d t s vs s' :
  Runs c (RFlags r d t) s (OTrue vs) s' <->
  exists l, Flags c r t d s l s' /\ vs = [VInt (fold_left Z.lor l d)].
Proof.
  rewrite Runs_shift. cbn [parse_step]. split.
  - intros [m H]. apply ev_at in H. destruct H as [n H].
    destruct (e_flags (eng n) c r t d s) as [[] s1 m1| |] eqn:He; try discriminate. cbn in H.
    injection H as <- <- _. now apply flags_bwd in He.
  - intros (l & H & ->). apply flags_fwd in H. exists 0. destruct H as [N H]. exists N. intros n Hn.
    now rewrite H.
Qed.

End Chain.
