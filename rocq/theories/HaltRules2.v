(** Every rule combinator ends when the rules below it do, continued. *)
From Verif Require Import Prelude RuleModel RuleSpec RuleDen RuleGood RuleMono RuleSem HaltBase HaltRules.
Close Scope N_scope.

Section Rules.
Variable inp : list N.
Variable prods : nat -> production.
Notation eng := (eng inp prods).
Notation ev := (ev inp prods).
Notation ok := (ok inp).
Notation fw := (fw inp).
Notation EvG := (EvG inp prods).
Notation EvR := (EvR inp prods).
Notation TH := (TH inp prods).
Notation CH := (CH inp prods).
Notation MH := (MH inp prods).
Notation WH := (WH inp prods).
Notation RH := (RH inp prods).
Notation deep := (deep inp).

Variable c : cx.
Variable d : nat.
Hypothesis HW : WH c.
Notation full := (full inp prods c d).
Notation goes := (goes inp prods c d).
Notation goesf := (goesf inp prods c d).
Notation bites := (bites inp prods c d).

Local Definition dok := deep_ok inp c d.
Local Definition dto := deep_to inp prods c d.
Hint Resolve dok : core.
Hint Extern 1 (HaltBase.deep _ _ _ ?s1) =>
  match goal with H : HaltBase.fw _ ?s s1 |- _ => apply (dto s s1); [|exact H] end : core.
Hint Extern 2 (HaltBase.fw _ ?s ?s1) => (eapply fw_k; [eassumption|reflexivity|reflexivity]) : core.
Local Lemma demits s es : deep c d s -> deep c d (emits es s).
Proof. exact (fun H => H). Qed.
Hint Resolve demits : core.
Local Definition mkf := mk_full inp prods c d.
Local Definition mkp := mk_plain inp prods c d.
Local Definition fparse := f_parse inp prods c d.
Local Definition ffinish := f_finish inp prods c d.
Local Definition frun := f_run inp prods c d.
Local Definition frunf := f_runf inp prods c d.

(** ** The list with a terminator *)
Definition lrank (ls : lstate) : nat :=
  match ls with LTerm => 5 | LSep => 4 | LTrail => 3 | LItem => 2 | LRecovery => 1 | LSearch _ => 0 end.

Definition lmeas (ls : lstate) (s : st) : nat := (length inp - pos s) * 6 + lrank ls.

Definition tround (item : rule) (sep : option (rule * sepk)) : Prop :=
  goes item /\ (is_branch prods item = true -> goesf item) /\
  match sep with Some (sr, _) => bites sr | None => is_branch prods item = true -> bites item end.

Lemma R_lstt term item sep lim : full term -> full item -> sepH (full) sep -> tround item sep ->
  forall m ls sp s acc, deep c d s -> lmeas ls s <= m ->
  EvR s (fun E => e_lstt E c term item sep lim ls sp s acc).
Proof.
  intros Hterm Hi Hsep (Hgo & Hgof & Hround). induction m as [m IH] using lt_wf_ind.
  intros ls sp s acc Hs Hm.
  assert (Next : forall ls' sp' s' acc', fw s s' ->
    (pos s < pos s' \/ lrank ls' < lrank ls) -> EvR s' (fun E => e_lstt E c term item sep lim ls' sp' s' acc')).
  { intros ls' sp' s' acc' Hf Hlt. apply (IH (lmeas ls' s')); eauto.
    unfold lmeas in *. destruct Hf as [? _].
    assert (lrank ls' < 6) by (destruct ls'; cbn; lia). lia. }
  assert (Here : forall ls' sp' acc' es, lrank ls' < lrank ls -> EvR s (fun E => e_lstt E c term item sep lim ls' sp' (emits es s) acc')).
  { intros. eapply R_l; [|apply Next; auto]; auto. }
  assert (Limit : forall b sp' es acc', ls = LSearch b ->
    EvR (emits es s) (fun E => lstt_limit inp E c term item sep lim b sp' (emits es s) acc')).
  { intros b sp' es acc' ->. unfold lstt_limit.
    apply (R_try inp prods (emits es s) term
      (fun E _ => Res (OTrue [VSink acc']) (lstt_recovered b (emits es s)) 0)
      (fun E tb => cancel_then E term tb (emits es s) (fun s =>
        if fst (tk_try lim inp (pos s)) || eof inp (pos s)
        then Res OFalse (emit (ERCancel (pos s)) (emit (EToken KError b (pos s)) s)) 0
        else e_lstt E c term item sep lim (LSearch b) sp' (setpos (S (pos s)) s) acc'))); [apply Hterm|solve [eauto]| |].
    - intros bs _. apply R_res. apply (fw_k inp c d); auto.
    - intros bs _. apply (R_cancel inp prods (emits es s) term bs (fun E s => 
        if fst (tk_try lim inp (pos s)) || eof inp (pos s)
        then Res OFalse (emit (ERCancel (pos s)) (emit (EToken KError b (pos s)) s)) 0
        else e_lstt E c term item sep lim (LSearch b) sp' (setpos (S (pos s)) s) acc')); [apply Hterm|].
      intros es2. cbn [pos emits]. destruct (_ || _) eqn:Hl.
      + apply R_res. apply (fw_k inp c d); auto.
      + apply orb_false_iff in Hl. destruct Hl as [_ Hl]. apply eof_lt in Hl.
        assert (Hf : fw s (setpos (S (pos s)) (emits es2 (emits es s)))).
        { unfold HaltBase.fw. cbn. lia. }
        apply (R_l inp prods _ (setpos (S (pos s)) (emits es2 (emits es s)))); [exact Hf|].
        apply Next; auto. }
  apply R_shift. cbn [step e_lstt]. unfold lstt_step. destruct ls as [| | | | |b].
  - (* LTerm *)
    apply (R_try inp prods s term (fun E _ => Res (OTrue [VSink acc]) s 0)
      (fun E b => cancel_then E term b s (fun s => e_lstt E c term item sep lim LSep sp s acc))); [apply Hterm|solve [eauto]| |].
    + intros bs _. apply R_res. auto.
    + intros bs _. apply (R_cancel inp prods s term bs (fun E s => e_lstt E c term item sep lim LSep sp s acc)); [apply Hterm|].
      intros es. apply Here. cbn. lia.
  - (* LSep *)
    destruct sep as [[sr k]|]; cbn [sepH] in Hsep; [|eapply R_l; [|apply Next; auto; right; cbn; lia]; auto].
    apply (R_orelse inp prods s (fun E => e_parse E c sr final s [])
      (fun E s' v => e_lstt E c term item (Some (sr, k)) lim LTrail (pos s) s' (push v acc))
      (fun E s' => if pos s =? pos s' then
                 if is_branch prods item then
                   match e_try E item (vars s') (pos s') with
                   | BR true b =>
                       orelse (e_finish E c item b final s' [])
                         (fun s2 v => e_lstt E c term item (Some (sr, k)) lim LTerm (pos s) s2 (push v acc))
                         (fun s2 => cancel_then E item b s2 (fun s2 => e_lstt E c term item (Some (sr, k)) lim LRecovery (pos s) s2 acc))
                   | BR false b => cancel_then E item b s' (fun s' => e_lstt E c term item (Some (sr, k)) lim LRecovery (pos s) s' acc)
                   | BNoFuel => NoFuel
                   | BCrash => Crash
                   end
                 else e_lstt E c term item (Some (sr, k)) lim LRecovery (pos s) s' acc
               else e_lstt E c term item (Some (sr, k)) lim LRecovery (pos s) s' acc)).
    + now apply frun.
    + intros s1 vs Hf _. apply Next; auto; right; cbn; lia.
    + intros s1 Hf _. assert (H1 : deep c d s1) by eauto.
      assert (Rec : forall es acc' sp' s2, fw s1 s2 -> EvR s1 (fun E => e_lstt E c term item (Some (sr, k)) lim LRecovery sp' (emits es s2) acc')).
      { intros es acc' sp' s2 H2. apply (R_l inp prods s1 (emits es s2)); [exact H2|].
        apply Next; [|right; cbn; lia]. eapply fw_trans; [exact Hf|]. exact H2. }
      assert (Rec0 : EvR s1 (fun E => e_lstt E c term item (Some (sr, k)) lim LRecovery (pos s) s1 acc)).
      { apply Next; auto; right; cbn; lia. }
      destruct (Nat.eqb_spec (pos s) (pos s1)) as [Hp|Hp]; [|exact Rec0].
      destruct (is_branch prods item) eqn:Hb; [|exact Rec0].
      apply (R_try inp prods s1 item
        (fun E b => orelse (e_finish E c item b final s1 [])
                         (fun s2 v => e_lstt E c term item (Some (sr, k)) lim LTerm (pos s) s2 (push v acc))
                         (fun s2 => cancel_then E item b s2 (fun s2 => e_lstt E c term item (Some (sr, k)) lim LRecovery (pos s) s2 acc)))
        (fun E b => cancel_then E item b s1 (fun s' => e_lstt E c term item (Some (sr, k)) lim LRecovery (pos s) s' acc))); [apply Hi|solve [eauto]| |].
      * intros bs Ht. apply (R_orelse inp prods s1 (fun E => e_finish E c item bs final s1 [])
           (fun E s2 v => e_lstt E c term item (Some (sr, k)) lim LTerm (pos s) s2 (push v acc))
           (fun E s2 => cancel_then E item bs s2 (fun s2 => e_lstt E c term item (Some (sr, k)) lim LRecovery (pos s) s2 acc))).
        -- now apply frunf.
        -- intros s2 vs H2 He. apply Next; [eapply fw_trans; [exact Hf|exact H2]|]. left. rewrite Hp. eapply (Hgof eq_refl); eauto.
        -- intros s2 H2 _. apply (R_cancel inp prods s2 item bs (fun E s2 => e_lstt E c term item (Some (sr, k)) lim LRecovery (pos s) s2 acc)); [apply Hi|].
           intros es. apply (R_l inp prods s2 (emits es s2)); [exact (fw_refl inp s2 (fw_ok inp _ _ H2))|].
           apply Next; [|right; cbn; lia]. eapply fw_trans; [exact Hf|exact H2].
      * intros bs _. apply (R_cancel inp prods s1 item bs (fun E s2 => e_lstt E c term item (Some (sr, k)) lim LRecovery (pos s) s2 acc)); [apply Hi|].
        intros es. apply Rec. apply fw_refl. auto.
  - (* LTrail *)
    destruct sep as [[sr k]|]; [|apply R_crash].
    apply (R_try inp prods s term (fun E _ => Res (OTrue [VSink acc]) (report_trailing k sp (pos s) s) 0)
      (fun E _ => e_lstt E c term item (Some (sr, k)) lim LItem sp s acc)); [apply Hterm|solve [eauto]| |].
    + intros bs _. apply R_res. apply rp_fw. auto.
    + intros bs _. apply Next; auto; right; cbn; lia.
  - (* LItem *)
    apply (R_orelse inp prods s (fun E => e_parse E c item final s [])
      (fun E s v => e_lstt E c term item sep lim LTerm sp s (push v acc))
      (fun E s => e_lstt E c term item sep lim LRecovery sp s acc)).
    + now apply frun.
    + intros s1 vs Hf He. apply Next; auto. left. eapply Hgo; eauto.
    + intros s1 Hf _. apply Next; auto; right; cbn; lia.
  - (* LRecovery *)
    eapply R_l; [|apply Next; auto]; auto.
  - (* LSearch *)
    assert (Lim : forall sp' es acc', EvR s (fun E => lstt_limit inp E c term item sep lim b sp' (emits es s) acc')).
    { intros sp' es acc'. eapply R_l; [|apply Limit; reflexivity]. auto. }
    assert (Hrec : deep c d (lstt_recovered b s)) by exact Hs.
    destruct sep as [[sr k]|]; cbn [sepH] in Hsep.
    + apply (R_try inp prods s sr
        (fun E sb => orelse (e_finish E c sr sb final (lstt_recovered b s) [])
                (fun s' v => e_lstt E c term item (Some (sr, k)) lim LTrail (pos s) s' (push v acc))
                (fun s' => e_lstt E c term item (Some (sr, k)) lim LRecovery (pos s) s' acc))
        (fun E sb => cancel_then E sr sb s (fun s => lstt_limit inp E c term item (Some (sr, k)) lim b (pos s) s acc))); [apply Hsep|solve [eauto]| |].
      * intros bs Ht.
        assert (H0 : fw s (lstt_recovered b s)) by auto.
        eapply R_l; [exact H0|].
        apply (R_orelse inp prods _ (fun E => e_finish E c sr bs final (lstt_recovered b s) [])
                (fun E s' v => e_lstt E c term item (Some (sr, k)) lim LTrail (pos s) s' (push v acc))
                (fun E s' => e_lstt E c term item (Some (sr, k)) lim LRecovery (pos s) s' acc)).
        -- now apply frunf.
        -- intros s1 vs Hf He. apply Next; [eapply fw_trans; [exact H0|exact Hf]|]. left. exact (Hround _ _ _ _ Hrec Ht He).
        -- intros s1 Hf He. apply Next; [eapply fw_trans; [exact H0|exact Hf]|]. left. exact (Hround _ _ _ _ Hrec Ht He).
      * intros bs _. apply (R_cancel inp prods s sr bs (fun E s => lstt_limit inp E c term item (Some (sr, k)) lim b (pos s) s acc)); [apply Hsep|].
        intros es. apply Lim.
    + destruct (is_branch prods item) eqn:Hb; [|exact (Lim sp [] acc)].
      apply (R_try inp prods s item
        (fun E ib => orelse (e_finish E c item ib final (lstt_recovered b s) [])
                (fun s' v => e_lstt E c term item None lim LTerm sp s' (push v acc))
                (fun s' => e_lstt E c term item None lim LRecovery sp s' acc))
        (fun E ib => cancel_then E item ib s (fun s => lstt_limit inp E c term item None lim b sp s acc))); [apply Hi|solve [eauto]| |].
      * intros bs Ht.
        assert (H0 : fw s (lstt_recovered b s)) by auto.
        eapply R_l; [exact H0|].
        apply (R_orelse inp prods _ (fun E => e_finish E c item bs final (lstt_recovered b s) [])
                (fun E s' v => e_lstt E c term item None lim LTerm sp s' (push v acc))
                (fun E s' => e_lstt E c term item None lim LRecovery sp s' acc)).
        -- now apply frunf.
        -- intros s1 vs Hf He. apply Next; [eapply fw_trans; [exact H0|exact Hf]|]. left. exact (Hround eq_refl _ _ _ _ Hrec Ht He).
        -- intros s1 Hf He. apply Next; [eapply fw_trans; [exact H0|exact Hf]|]. left. exact (Hround eq_refl _ _ _ _ Hrec Ht He).
      * intros bs _. apply (R_cancel inp prods s item bs (fun E s => lstt_limit inp E c term item None lim b sp s acc)); [apply Hi|].
        intros es. apply Lim.
Qed.


Lemma R_lstt0 term item sep lim ls sp s acc : full term -> full item -> sepH full sep -> tround item sep ->
  deep c d s -> EvR s (fun E => e_lstt E c term item sep lim ls sp s acc).
Proof. intros. eapply R_lstt; eauto. Qed.

Lemma full_lstt term item sep lim : full term -> full item -> sepH full sep -> tround item sep ->
  full (RLstT term item sep lim).
Proof.
  intros Ht Hi Hsep Hr. apply mkp; auto. intros s b Hs. cbn [parse_step]. unfold p_lstt.
  set (J := fun (E : engine) (k : cont) (a : list val) (s : st) (v : list val) =>
    match e_try E term (vars s) (pos s) with
    | BR true bs => e_finish E c term bs k s (a ++ v)
    | BR false _ => Crash
    | BNoFuel => NoFuel
    | BCrash => Crash
    end).
  assert (HJ : forall s1 v, deep c d s1 -> EvG b s1 (fun E k a => J E k a s1 v)).
  { intros s1 v H1. unfold J.
    apply (G_try inp prods b s1 term (fun E bs k a => e_finish E c term bs k s1 (a ++ v)) (fun _ _ _ _ => Crash)); [apply Ht|solve [eauto]| |].
    - intros bs He. apply (G_args inp prods b s1 (fun E k a => e_finish E c term bs k s1 a)). now apply ffinish.
    - intros. apply G_crash. }
  apply (G_orelse inp prods b s (fun E => e_parse E c item final s [])
    (fun E k a s1 v => delim (e_lstt E c term item sep lim LTerm (pos s1) s1 (push v [])) (J E k a))
    (fun E k a s1 => delim (e_lstt E c term item sep lim LRecovery (pos s1) s1 []) (J E k a))).
  - now apply frun.
  - intros s1 vs Hf _. apply (G_delim inp prods b s1 _ J).
    + apply R_lstt0; eauto.
    + intros s2 v2 H2 _. apply HJ. eauto.
  - intros s1 Hf _. apply (G_delim inp prods b s1 _ J).
    + apply R_lstt0; eauto.
    + intros s2 v2 H2 _. apply HJ. eauto.
Qed.

(** ** Separators, recovery *)
Lemma full_nsep r t : full r -> full (RNSep r t).
Proof.
  intros H. apply mkp; auto. intros s b Hs. cbn [parse_step]. unfold p_nsep.
  apply (G_branch_or inp prods c d b false r s
    (fun E k => Cont false (fun s' a => k_fn k (emit (EError t (pos s) (pos s')) s') a))
    (fun E k a s => k_fn k s a)); auto.
  - intros s1 Hf. cbn [k_fn]. apply G_k. assert (deep c d s1) by eauto. auto.
  - intros es. apply G_k. auto.
Qed.

Lemma search_fw f s : deep c d s -> pos s <= snd (fst (search_from inp f (pos s))) <= length inp.
Proof.
  intros [Hs _]. unfold RuleDen.ok in Hs. unfold search_from.
  destruct (search inp f (length inp - pos s) (pos s)) as [[x p] e] eqn:H.
  apply search_bounds in H; [|lia]. cbn. lia.
Qed.

Lemma full_find f : full (RFind f).
Proof.
  apply mkp; auto. intros s b Hs. cbn [parse_step]. unfold p_find.
  pose proof (search_fw f s Hs) as Hb. destruct (search_from inp f (pos s)) as [[x p] e]. cbn [fst snd] in Hb.
  destruct x; [apply G_k|apply G_false]; unfold HaltBase.fw; cbn; lia.
Qed.

Lemma G_reco lim al p b : full al -> forall m s, deep c d s -> length inp - pos s <= m ->
  EvG b s (fun E k a => e_reco E c lim al p k s a).
Proof.
  intros Hr. induction m as [m IH] using lt_wf_ind. intros s Hs Hm.
  apply G_shift. cbn [step e_reco]. unfold reco_step.
  apply (G_try inp prods b s al
    (fun E bs k a => e_finish E c al bs k (emit (ERFinish (pos s)) (emit (EToken KError p (pos s)) s)) a)
    (fun E bs k a => cancel_then E al bs s (fun s =>
        if fst (tk_try lim inp (pos s)) || eof inp (pos s)
        then Res OFalse (emit (ERCancel (pos s)) (emit (EToken KError p (pos s)) s)) 0
        else e_reco E c lim al p k (setpos (S (pos s)) s) a))); [apply Hr|solve [eauto]| |].
  - intros bs Ht. eapply G_l; [|apply (ffinish al (emit (ERFinish (pos s)) (emit (EToken KError p (pos s)) s)) b bs Hr Hs Ht)].
    auto.
  - intros bs _. apply (G_cancel inp prods b s al bs (fun E k a s =>
        if fst (tk_try lim inp (pos s)) || eof inp (pos s)
        then Res OFalse (emit (ERCancel (pos s)) (emit (EToken KError p (pos s)) s)) 0
        else e_reco E c lim al p k (setpos (S (pos s)) s) a)); [apply Hr|].
    intros es. cbn [pos emits]. destruct (_ || _) eqn:Hl.
    + apply G_false. auto.
    + apply orb_false_iff in Hl. destruct Hl as [_ Hl]. apply eof_lt in Hl.
      assert (Hf : fw s (setpos (S (pos s)) (emits es s))) by (unfold HaltBase.fw; cbn; lia).
      eapply G_l; [exact Hf|]. eapply (IH (length inp - S (pos s))); [lia|eauto|cbn; lia].
Qed.

Lemma full_reco lim bs : full (alts_of bs) -> full (RReco lim bs).
Proof.
  intros H. apply mkp; auto. intros s b Hs. cbn [parse_step].
  eapply G_l; [|eapply G_reco; [exact H|exact Hs|apply le_n]]; auto.
Qed.

(** Any use of the outcome of a parser. *)
Lemma G_through b nb s s0 P (F : engine -> cont -> list val -> cont) (Q : engine -> cont -> list val -> res -> res) :
  EvG nb s0 P -> (forall E k a, k_nows k = b -> k_nows (F E k a) = nb) ->
  (forall o s1, fw s0 s1 -> EvG b s (fun E k a => Q E k a (Res (sto o a) s1 0))) ->
  (forall l s1 vs, fw s0 s1 -> EvG b s (fun E k a => Q E k a (posts l (k_fn (F E k a) s1 (a ++ vs))))) ->
  EvG b s (fun E k a => Q E k a Crash) ->
  EvG b s (fun E k a => Q E k a (P E (F E k a) a)).
Proof.
  intros (x & Hx & N & HN) HF H1 H2 H3.
  assert (H : EvG b s (fun E k a => Q E k a (apply x (F E k a) a))).
  { destruct x; cbn [gd] in Hx; cbn [apply]; auto. destruct Hx. }
  destruct H as (y & Hy & M & HM). exists y. split; auto. exists (N + M). intros n Hn k a Hk.
  rewrite (HN n) by (auto; lia). apply HM; [lia|auto].
Qed.

Lemma G_recw b r s : match r with Some r => full r | None => True end -> deep c d s ->
  EvG b s (fun E k a => p_recw E c r k s a).
Proof.
  intros Hr Hs. unfold p_recw.
  set (s1 := emit (ERStart (pos s)) s).
  assert (H1 : deep c d s1) by exact Hs.
  assert (HP : EvG false s1 (fun E k a =>
     match r with None => ws_then E c k s1 a
                | Some r => e_parse E c r (Cont false (fun s a => ws_then E c k s a)) s1 a end)).
  { destruct r as [r|].
    - apply (G_bind inp prods false false s1 (fun E k a => e_parse E c r k s1 a)
               (fun E k => Cont false (fun s a => ws_then E c k s a))); auto.
      + apply fparse; auto.
      + intros s2 H2. cbn [k_fn]. apply G_ws; eauto.
    - apply G_ws; eauto. }
  eapply G_ext; [|eapply (G_through b false s s1 _
     (fun E k a => Cont false (fun s a => mark (k_fn k (emit (ERFinish (pos s)) s) a)))
     (fun E k a x => match x with
     | Res o s m => match m with S m => Res o s m | O => Res o (emit (ERCancel (pos s)) s) 0 end
     | x => x end) HP)].
  - intros E k a _. cbn beta. destruct r; reflexivity.
  - auto.
  - intros o s2 Hf. apply G_stop. exact Hf.
  - intros l s2 vs Hf. cbn [k_fn].
    eapply G_ext with (F' := fun E k a => posts l (k_fn k (emit (ERFinish (pos s2)) s2) (a ++ vs))).
    { intros E k a _. cbn beta.
      destruct (k_fn k (emit (ERFinish (pos s2)) s2) (a ++ vs)) as [o s3 m| |]; cbn [mark];
        rewrite ?posts_Res, ?posts_NoFuel, ?posts_Crash; reflexivity. }
    apply (G_posts inp prods b l s s2); [exact Hf|].
    assert (deep c d s2) by (eapply dto; eauto). apply G_kv. auto.
  - apply G_crash.
Qed.

Lemma full_recw r : match r with Some r => full r | None => True end -> full (RRecW r).
Proof. intros H. apply mkp; auto. intros s b Hs. cbn [parse_step]. now apply G_recw. Qed.

Lemma G_try_after b term rec s P : match term with Some r => full r | None => True end ->
  match rec with Some r => full r | None => True end -> deep c d s ->
  EvG false s P ->
  EvG b s (fun E k a => try_after E c rec k a (P E (try_cont E c term k) a)).
Proof.
  intros Ht Hr Hs HP.
  apply (G_through b false s s P (fun E k a => try_cont E c term k) (fun E k a x => try_after E c rec k a x)); auto.
  - intros o s1 Hf. destruct o; cbn [sto try_after]; try apply G_crash.
    assert (H1 : deep c d s1) by eauto. eapply G_l; [exact Hf|]. unfold try_recover.
    assert (HW0 : EvG b s1 (fun E k a => e_parse E c (RRecW rec) k s1 a)).
    { apply fparse; auto. now apply full_recw. }
    destruct rec as [[]|]; try exact HW0; apply fparse; auto.
  - intros l s1 vs Hf. assert (H1 : deep c d s1) by eauto.
    set (X := fun (E : engine) (k : cont) (a : list val) =>
       match term with None => k_fn k s1 (a ++ vs) | Some t => e_parse E c t k s1 (a ++ vs) end).
    eapply G_ext with (F' := fun E k a => posts l (X E k a)).
    { intros E k a _. unfold try_cont. cbn [k_fn]. fold (X E k a).
      destruct (X E k a) as [[] s2 m| |]; cbn [mark];
        rewrite ?posts_Res, ?posts_NoFuel, ?posts_Crash; reflexivity. }
    eapply G_posts; [exact Hf|]. unfold X. destruct term as [t|].
    + apply (G_args inp prods b s1 (fun E k a => e_parse E c t k s1 a) vs). now apply fparse.
    + apply G_kv. auto.
  - apply G_crash.
Qed.

Lemma full_tryt term r rec : match term with Some r => full r | None => True end -> full r ->
  match rec with Some r => full r | None => True end -> full (RTryT term r rec).
Proof.
  intros Ht Hr Hrec. apply mkp; auto. intros s b Hs. cbn [parse_step]. unfold p_try.
  apply (G_try_after b term rec s (fun E k a => e_parse E c r k s a)); auto. now apply fparse.
Qed.

Lemma full_try r rec : full r -> match rec with Some r => full r | None => True end -> full (RTry r rec).
Proof.
  intros Hr Hrec. apply mkf.
  - apply (try_same inp prods (RTry r rec) r); [reflexivity|apply Hr].
  - apply (cancel_same inp prods (RTry r rec) r); [reflexivity|apply Hr].
  - intros s b Hs. cbn [parse_step]. unfold p_try.
    apply (G_try_after b None rec s (fun E k a => e_parse E c r k s a)); auto. now apply fparse.
  - intros s b bs n Hs Ht. cbn [finish_step].
    apply (G_try_after b None rec s (fun E k a => e_finish E c r bs k s a)); auto.
    apply ffinish; auto. eapply tries_of; eauto.
Qed.

End Rules.
