(** Whole traces. *)
From Coq Require Import String Ascii.
From Verif Require Import Prelude CodecModel CodecSpec LitModel LitSpec SwarSpec ClassSpec TextSpec LocModel LocSpec LocProofs LocText LocAnn
  RuleModel RuleSpec RuleMain
  VisModel VisSpec VisProofs VisText VisShow VisInj VisMain RepModel RepSpec RepText RepProofs RepMain PtModel TvModel TvSpec TvProofs TvMain
  TrModel TrSpec TrProofs TrMain.
Close Scope string_scope.
Open Scope N_scope.

(** ** Rows do not depend on colors *)
Section Plain.
Variables (tn : tkind -> list N) (e : input_encoding) (inp : list N) (o : options) (place : nat -> list N).
Notation o' := (VisModel.reset o visualize_use_color).
Lemma unicode_reset : unicode o' = unicode o.
Proof. unfold unicode. apply reset_unicode. Qed.
Lemma row_reset d p j text : row o' place d p j text = row o place d p j text.
Proof. unfold row, joint_text, trunk. now rewrite unicode_reset. Qed.
Lemma heading_reset d name : heading o' d name = heading o d name.
Proof. unfold heading, dots. now rewrite reset_unicode. Qed.
Lemma spaced_reset us : spaced e o' us = spaced e o us.
Proof. unfold spaced. rewrite !lexeme_output_eq, !displayed_lexeme, !reset_set, reset_reset. reflexivity. Qed.
Lemma error_reset k : error_message e o' k = error_message e o k.
Proof. destruct k; cbn [error_message]; rewrite ?lexeme_output_eq, ?displayed_lexeme, ?reset_reset; reflexivity. Qed.
Lemma leaf_reset l : leaf_row tn e inp o' l = leaf_row tn e inp o l.
Proof. destruct l; cbn [leaf_row]; rewrite ?error_reset; try reflexivity; destruct (lexeme_of inp b e0); rewrite ?spaced_reset; reflexivity. Qed.
Lemma group_reset d p q name l j : group o' place d p q name l j = group o place d p q name l j.
Proof. unfold group. now rewrite !row_reset, heading_reset. Qed.
Lemma rows_reset t : forall d, rows tn e inp o' place d t = rows tn e inp o place d t.
Proof.
  induction t as [l|name p kids c q IH|p kids q IH|p kids c q IH] using tnode_ind'; intros d; cbn [rows];
    change (limit o') with (limit o); (destruct (d <=? limit o)%nat; [|reflexivity]).
  - rewrite leaf_reset. destruct (leaf_row tn e inp o l) as [[p text]|]; [|reflexivity]. now rewrite row_reset.
  - rewrite group_reset. f_equal. induction IH as [|x kids Hx _ IHk]; [reflexivity|]. cbn [flat_map]. now rewrite Hx, IHk.
  - rewrite group_reset. f_equal. induction IH as [|x kids Hx _ IHk]; [reflexivity|]. cbn [flat_map]. now rewrite Hx, IHk.
  - rewrite group_reset. f_equal. induction IH as [|x kids Hx _ IHk]; [reflexivity|]. cbn [flat_map]. now rewrite Hx, IHk.
Qed.
End Plain.

Lemma trace_rows tn e inp o l t : text_units (unit_encoding e) inp -> N.of_nat (length inp) < 9999999 ->
  (forall k, clean (tn k)) -> Forall clean_event l -> vo_max_tree_depth o <= 32 -> whole l t ->
  (on_time e inp [] t /\ exists place text, (forall p, (p <= length inp)%nat -> place_of e inp p (place p)) /\
     trace_output tn e inp o l = Done text /\ displayed false text = lines (rows tn e inp o place 0 t)) \/
  (~ on_time e inp [] t /\ trace_output tn e inp o l = Asserts).
Proof.
  intros Hi Hl Hn Hc Hm Hw. rewrite trace_output_eq.
  pose proof (D_trace tn e inp Hn o l Hc) as HD.
  assert (Hl' : N.of_nat (length inp) + 1 < 2 ^ 32) by (change (2 ^ 32) with 4294967296; lia).
  destruct (whole_traced e inp Hi Hl' Hl tn (VisModel.reset o visualize_use_color) (reset_color o) l t Hw Hm) as [(Ho & Ht)|(Ho & Ht)];
    rewrite Ht in HD; [left|right]; (split; [exact Ho|]); destruct (t_trace tn e inp o l) as [text| |]; try contradiction; [|reflexivity].
  exists (place e inp), text. split; [intros p; now apply place_ok|]. split; [reflexivity|].
  cbn [Do] in HD. rewrite (D_displayed _ _ HD). now rewrite rows_reset.
Qed.

(** ** Positions *)
Section Positions.
Variables (e : input_encoding) (inp : list N).
Variable P : list nat -> list nat -> Prop.
Hypothesis P_head : forall L q ps, P L (q :: ps) -> not_before e inp L q /\ P L ps /\ P (q :: L) ps.
Hypothesis P_incl : forall L L' ps, incl L' L -> P L ps -> P L' ps.
Lemma positions_app l l' : positions (l ++ l') = positions l ++ positions l'.
Proof. apply flat_map_app. Qed.
Lemma on_time_from t : forall L rest, P L (positions (flattened t) ++ rest) -> on_time e inp L t /\ P (live t ++ L) rest.
Proof.
  induction t as [l|name p kids c q IH|p kids q IH|p kids c q IH] using tnode_ind'; intros L rest H.
  { destruct l; cbn in *; auto; apply P_head in H as (H1 & H2 & _); auto. }
  all: assert (HK : forall L rest, P L (positions (flat_map flattened kids) ++ rest) ->
      all_on_time e inp L kids /\ P (flat_map live kids ++ L) rest) by
    (clear - IH P_incl; induction IH as [|x kids Hx _ IHk]; intros L rest H; [split; [exact I|exact H]|];
     cbn [flat_map all_on_time] in *; rewrite positions_app, <- app_assoc in H; apply Hx in H as (H1 & H2);
     apply IHk in H2 as (H2 & H3); split; [auto|]; eapply P_incl; [|exact H3]; intros s; rewrite !in_app_iff; tauto).
  - change (on_time e inp L (TProduction name p kids c q)) with
      (not_before e inp L p /\ all_on_time e inp (p :: L) kids /\ not_before e inp (flat_map live kids ++ p :: L) q).
    cbn [flattened live] in *.
    assert (HE : positions (PStart name p :: flat_map flattened kids ++ [if c then PCancel q else PFinish q]) ++ rest =
      p :: positions (flat_map flattened kids) ++ q :: rest).
    { change (positions (PStart name p :: flat_map flattened kids ++ [if c then PCancel q else PFinish q])) with
        (p :: positions (flat_map flattened kids ++ [if c then PCancel q else PFinish q])). rewrite positions_app.
      replace (positions [if c then PCancel q else PFinish q]) with [q] by now destruct c. cbn [app]. now rewrite <- app_assoc. }
    rewrite HE in H. apply P_head in H as (H1 & _ & H2). apply HK in H2 as (H2 & H3). apply P_head in H3 as (H3 & H4 & _).
    split; [auto|]. eapply P_incl; [|exact H4]. destruct c; intros s; cbn [app In]; rewrite ?in_app_iff; cbn [In]; tauto.
  - change (on_time e inp L (TChain p kids q)) with
      (not_before e inp L p /\ all_on_time e inp L kids /\ not_before e inp (flat_map live kids ++ L) q).
    cbn [flattened live] in *.
    assert (HE : positions (OStart p :: flat_map flattened kids ++ [OFinish q]) ++ rest =
      p :: positions (flat_map flattened kids) ++ q :: rest).
    { change (positions (OStart p :: flat_map flattened kids ++ [OFinish q])) with
        (p :: positions (flat_map flattened kids ++ [OFinish q])). rewrite positions_app. cbn. now rewrite <- app_assoc. }
    rewrite HE in H. apply P_head in H as (H1 & H2 & _). apply HK in H2 as (H2 & H3). apply P_head in H3 as (H3 & H4 & _). auto.
  - change (on_time e inp L (TRecovery p kids c q)) with
      (not_before e inp L p /\ all_on_time e inp L kids /\ not_before e inp (flat_map live kids ++ L) q).
    cbn [flattened live] in *.
    assert (HE : positions (RStart p :: flat_map flattened kids ++ [if c then RCancel q else RFinish q]) ++ rest =
      p :: positions (flat_map flattened kids) ++ q :: rest).
    { change (positions (RStart p :: flat_map flattened kids ++ [if c then RCancel q else RFinish q])) with
        (p :: positions (flat_map flattened kids ++ [if c then RCancel q else RFinish q])). rewrite positions_app.
      replace (positions [if c then RCancel q else RFinish q]) with [q] by now destruct c. cbn [app]. now rewrite <- app_assoc. }
    rewrite HE in H. apply P_head in H as (H1 & H2 & _). apply HK in H2 as (H2 & H3). apply P_head in H3 as (H3 & H4 & _). auto.
Qed.
End Positions.

Lemma forward_on_time e inp t : ascending 0 (positions (flattened t)) ->
  Forall (fun p => (p <= length inp)%nat) (positions (flattened t)) -> on_time e inp [] t.
Proof.
  intros H HF.
  apply (on_time_from e inp (fun L ps => exists m, (forall s, In s L -> (s <= m)%nat) /\ ascending m ps /\ Forall (fun p => (p <= length inp)%nat) ps)) with (rest := []).
  - intros L q ps (m & HL & Ha & Hf). inversion Ha as [|? ? ? Hq Ha']; subst. inversion Hf as [|? ? Hq' Hf']; subst.
    split; [split; [exact Hq'|]; intros s Hs; pose proof (line_start_le e inp s); specialize (HL s Hs); lia|].
    split; exists q; (split; [|auto]).
    + intros s Hs. specialize (HL s Hs). lia.
    + intros s [<-|Hs]; [lia|]. specialize (HL s Hs). lia.
  - intros L L' ps Hi (m & HL & Hr). exists m. split; [|exact Hr]. intros s Hs. apply HL, Hi, Hs.
  - rewrite app_nil_r. exists 0%nat. split; [intros s []|auto].
Qed.
Lemma single_line_on_time E inp t : ~ In LF inp -> Forall (fun p => (p <= length inp)%nat) (positions (flattened t)) ->
  on_time (InText E) inp [] t.
Proof.
  intros Hn HF.
  apply (on_time_from (InText E) inp (fun L ps => (forall s, In s L -> (s <= length inp)%nat) /\ Forall (fun p => (p <= length inp)%nat) ps)) with (rest := []).
  - intros L q ps (HL & Hf). inversion Hf as [|? ? Hq Hf']; subst.
    split; [split; [exact Hq|]|split; [auto|]].
    + intros s Hs. specialize (HL s Hs). destruct (begins_last_line inp s HL) as (_ & [B|B] & _); unfold line_start; [lia|].
      apply nth_error_In in B. contradiction.
    + split; [|exact Hf']. intros s [<-|Hs]; [exact Hq|auto].
  - intros L L' ps Hi (HL & Hr). split; [|exact Hr]. intros s Hs. apply HL, Hi, Hs.
  - rewrite app_nil_r. split; [intros s []|auto].
Qed.

(** ** The events of the rule engine *)
Section Engine.
Variables (pn : nat -> list N) (describe : etag -> nat -> nat -> error_kind).
Notation seen := (seen pn describe).
Definition is_forest (es : list event) : Prop := exists f, map seen es = flat_map flattened f.
Ltac too_long H := exfalso; apply (f_equal (fun x => match x with Some l => length l | None => O end)) in H; cbn in H; lia.
Lemma split_nest n : forall es f stk r, (length es <= n)%nat -> nest es (f :: stk) = Some r -> (length r <= length stk)%nat ->
  exists es1 c es2, es = es1 ++ c :: es2 /\ is_forest es1 /\ nest1 c (f :: stk) = Some stk /\ nest es2 stk = Some r.
Proof.
  induction n as [|n IH]; intros es f stk r Hn H Hr.
  { destruct es; [|cbn in Hn; lia]. cbn in H. injection H as <-. cbn in Hr. lia. }
  destruct es as [|ev es]; [cbn in H; injection H as <-; cbn in Hr; lia|]. cbn [length] in Hn. cbn [nest] in H.
  assert (Leaf : forall l, nest1 ev (f :: stk) = Some (f :: stk) -> seen ev = leaf_event l ->
    exists es1 c es2, ev :: es = es1 ++ c :: es2 /\ is_forest es1 /\ nest1 c (f :: stk) = Some stk /\ nest es2 stk = Some r).
  { intros l Hl Hs. rewrite Hl in H. destruct (IH es f stk r ltac:(lia) H Hr) as (es1 & c & es2 & -> & (F & HF) & Hc & H2).
    exists (ev :: es1), c, es2. split; [reflexivity|]. split; [|auto]. exists (TLeaf l :: F). cbn [map flat_map flattened app]. now rewrite Hs, HF. }
  assert (Push : forall g, nest1 ev (f :: stk) = Some (g :: f :: stk) ->
    (forall F c, nest1 c (g :: f :: stk) = Some (f :: stk) -> exists f', seen ev :: flat_map flattened F ++ [seen c] = flat_map flattened f') ->
    exists es1 c es2, ev :: es = es1 ++ c :: es2 /\ is_forest es1 /\ nest1 c (f :: stk) = Some stk /\ nest es2 stk = Some r).
  { intros g Hg Hs. rewrite Hg in H. destruct (IH es g (f :: stk) r ltac:(lia) H ltac:(cbn; lia)) as (es1 & c & es2 & -> & (F & HF) & Hc & H2).
    rewrite app_length in Hn. cbn [length] in Hn.
    destruct (IH es2 f stk r ltac:(lia) H2 Hr) as (es3 & c' & es4 & -> & (F' & HF') & Hc' & H4).
    exists ((ev :: es1 ++ [c]) ++ es3), c', es4. split; [cbn [app]; now rewrite <- !app_assoc|]. split; [|auto].
    destruct (Hs F c Hc) as (f' & Hf'). exists (f' ++ F'). rewrite map_app, flat_map_app. f_equal; [|exact HF'].
    cbn [map]. rewrite map_app. cbn [map]. rewrite HF. exact Hf'. }
  assert (Close : nest1 ev (f :: stk) = Some stk ->
    exists es1 c es2, ev :: es = es1 ++ c :: es2 /\ is_forest es1 /\ nest1 c (f :: stk) = Some stk /\ nest es2 stk = Some r).
  { intros Hc. rewrite Hc in H. exists [], ev, es. split; [reflexivity|]. split; [exists []; reflexivity|auto]. }
  destruct ev.
  - apply (Push FG); [reflexivity|]. intros F c Hc. exists (TLeaf (LGStart p) :: F ++ [TLeaf (match c with EGFinish q => LGFinish q | EGCancel q => LGCancel q | _ => LGStart 0 end)]).
    cbn [flat_map flattened leaf_event app]. rewrite flat_map_app. destruct c; cbn in Hc; try discriminate; try (too_long Hc); reflexivity.
  - destruct f; cbn [nest1] in H; try discriminate. now apply Close.
  - destruct f; cbn [nest1] in H; try discriminate. now apply Close.
  - apply (Push (FP prod)); [reflexivity|]. intros F c Hc.
    destruct c; cbn in Hc; try discriminate; try (too_long Hc);
      [exists [TProduction (pn prod) p F false p0]|exists [TProduction (pn prod) p F true p0]]; cbn [flat_map flattened app]; rewrite app_nil_r; reflexivity.
  - destruct f; cbn [nest1] in H; try discriminate. cbn [nest1] in Close. destruct (prod =? q)%nat; [now apply Close|discriminate].
  - destruct f; cbn [nest1] in H; try discriminate. cbn [nest1] in Close. destruct (prod =? q)%nat; [now apply Close|discriminate].
  - now apply (Leaf (LToken k b e)).
  - now apply (Leaf (LBack b e)).
  - now apply (Leaf (LError b (describe t b e))).
  - apply (Push FR); [reflexivity|]. intros F c Hc.
    destruct c; cbn in Hc; try discriminate; try (too_long Hc);
      [exists [TRecovery p F false p0]|exists [TRecovery p F true p0]]; cbn [flat_map flattened app]; rewrite app_nil_r; reflexivity.
  - destruct f; cbn [nest1] in H; try discriminate. now apply Close.
  - destruct f; cbn [nest1] in H; try discriminate. now apply Close.
Qed.
Lemma balanced_forest es : balanced es -> is_forest es.
Proof.
  intros H. specialize (H []). remember (length es) as n eqn:Hn. revert es H Hn.
  induction n as [n IH] using lt_wf_ind. intros es H Hn. destruct es as [|ev es]; [exists []; reflexivity|]. cbn [length] in Hn. cbn [nest] in H.
  assert (Leaf : forall l, nest1 ev [] = Some [] -> seen ev = leaf_event l -> is_forest (ev :: es)).
  { intros l Hl Hs. rewrite Hl in H. destruct (IH (length es) ltac:(lia) es H eq_refl) as (F & HF).
    exists (TLeaf l :: F). cbn [map flat_map flattened app]. now rewrite Hs, HF. }
  assert (Push : forall g, nest1 ev [] = Some [g] ->
    (forall F c, nest1 c [g] = Some [] -> exists f', seen ev :: flat_map flattened F ++ [seen c] = flat_map flattened f') -> is_forest (ev :: es)).
  { intros g Hg Hs. rewrite Hg in H. destruct (split_nest (length es) es g [] [] (le_n _) H (le_n _)) as (es1 & c & es2 & -> & (F & HF) & Hc & H2).
    rewrite app_length in Hn. cbn [length] in Hn. destruct (IH (length es2) ltac:(lia) es2 H2 eq_refl) as (F' & HF').
    destruct (Hs F c Hc) as (f' & Hf'). exists (f' ++ F'). rewrite flat_map_app, <- Hf', <- HF'. cbn [map app]. rewrite map_app. cbn [map]. rewrite HF.
    rewrite <- app_assoc. reflexivity. }
  destruct ev; try discriminate H.
  - apply (Push FG); [reflexivity|]. intros F c Hc. exists (TLeaf (LGStart p) :: F ++ [TLeaf (match c with EGFinish q => LGFinish q | EGCancel q => LGCancel q | _ => LGStart 0 end)]).
    cbn [flat_map flattened leaf_event app]. rewrite flat_map_app. destruct c; cbn in Hc; try discriminate; reflexivity.
  - apply (Push (FP prod)); [reflexivity|]. intros F c Hc.
    destruct c; cbn in Hc; try discriminate; [exists [TProduction (pn prod) p F false p0]|exists [TProduction (pn prod) p F true p0]];
      cbn [flat_map flattened app]; rewrite app_nil_r; reflexivity.
  - now apply (Leaf (LToken k b e)).
  - now apply (Leaf (LBack b e)).
  - now apply (Leaf (LError b (describe t b e))).
  - apply (Push FR); [reflexivity|]. intros F c Hc.
    destruct c; cbn in Hc; try discriminate; [exists [TRecovery p F false p0]|exists [TRecovery p F true p0]];
      cbn [flat_map flattened app]; rewrite app_nil_r; reflexivity.
Qed.
Lemma parse_whole inp prods n p o s m : action inp prods n p = Res o s m -> exists t, whole (map seen (rev (trace s))) t.
Proof.
  intros H. destruct (action_parts inp prods n p o s m H) as (es & -> & _ & Hb). destruct (balanced_forest es Hb) as (F & HF).
  destruct (action_out inp prods n p o s m H) as [->|(vs & ->)]; rewrite !map_app, HF; cbn [map TrModel.seen].
  - exists (TProduction (pn p) 0 F true (pos s)). pose proof (whole_parse (pn p) 0 F true (pos s) 0 (pos s)) as W. cbn [flattened app] in *.
    rewrite <- app_assoc in W. exact W.
  - exists (TProduction (pn p) 0 F false (pos s)). pose proof (whole_parse (pn p) 0 F false (pos s) 0 (pos s)) as W. cbn [flattened app] in *.
    rewrite <- app_assoc in W. exact W.
Qed.
Lemma whole_positions l t : whole l t -> positions l = positions (flattened t).
Proof.
  intros [name p kids c q g g']. change (GStart g :: flattened (TProduction name p kids c q) ++ [if c then GCancel g' else GFinish g'])
    with ([GStart g] ++ flattened (TProduction name p kids c q) ++ [if c then GCancel g' else GFinish g']).
  rewrite !positions_app. destruct c; cbn [app]; apply app_nil_r.
Qed.

Lemma ascending_app p l q l' : ascending p l -> Forall (fun x => (x <= q)%nat) l -> (p <= q)%nat -> ascending q l' -> ascending p (l ++ l').
Proof.
  intros H. revert q. induction H as [p|p x l Hx H IH]; intros q HF Hq H'; cbn [app].
  - inversion H'; subst; constructor; auto. lia.
  - inversion HF; subst. constructor; [exact Hx|]. now apply IH with q.
Qed.
Lemma segment_le p es q : segment p es q -> (p <= q)%nat.
Proof. induction 1; lia. Qed.
Lemma smooth_ascending p es q : segment p es q -> Forall smooth es ->
  ascending p (positions (map seen es)) /\ Forall (fun x => (x <= q)%nat) (positions (map seen es)).
Proof.
  induction 1 as [p|p k e es q Hl H IH|p ev es q Hev H IH|p a es r es' q H IH H' IH'|p a es r es' q H IH H' IH'|p a x es es' q Hd H IH]; intros HF.
  - split; constructor.
  - inversion HF as [|? ? _ HF']; subst. destruct (IH HF') as (A & B). pose proof (segment_le _ _ _ H). cbn [map TrModel.seen].
    change (positions (Token k p e :: map seen es)) with (p :: positions (map seen es)). split.
    + constructor; [lia|]. inversion A; subst; constructor; auto. lia.
    + constructor; [lia|exact B].
  - inversion HF as [|? ? Hs HF']; subst. destruct ev; cbn in Hs, Hev; try contradiction; cbn [map TrModel.seen]; exact (IH HF').
  - inversion HF as [|? ? _ HF']; subst. apply Forall_app in HF' as (F1 & F2). inversion F2 as [|? ? _ F3]; subst.
    destruct (IH F1) as (A & B). destruct (IH' F3) as (A' & B'). pose proof (segment_le _ _ _ H). pose proof (segment_le _ _ _ H').
    cbn [map TrModel.seen]. rewrite map_app. cbn [map TrModel.seen].
    change (positions (PStart (pn a) p :: map seen es ++ PFinish r :: map seen es')) with
      (p :: positions (map seen es ++ PFinish r :: map seen es')).
    rewrite positions_app. change (positions (PFinish r :: map seen es')) with (r :: positions (map seen es')). split.
    + constructor; [lia|]. eapply ascending_app; [exact A|exact B|lia|]. constructor; [lia|exact A'].
    + constructor; [lia|]. apply Forall_app. split; [eapply Forall_impl; [|exact B]; cbn; intros; lia|]. constructor; [lia|exact B'].
  - inversion HF as [|? ? _ HF']; subst. apply Forall_app in HF' as (F1 & F2). inversion F2 as [|? ? Hs F3]; subst. contradiction.
  - inversion HF as [|? ? _ HF']; subst. apply Forall_app in HF' as (F1 & F2). inversion F2 as [|? ? Hs F3]; subst. contradiction.
Qed.
Lemma smooth_parse e inp prods n p o s m t : action inp prods n p = Res o s m -> Forall smooth (rev (trace s)) ->
  whole (map seen (rev (trace s))) t -> on_time e inp [] t.
Proof.
  intros H Hs Hw. pose proof (action_segment inp prods n p o s m H) as Hg.
  destruct (action_events inp prods n p o s m H) as (_ & _ & _ & Hp).
  destruct (smooth_ascending _ _ _ Hg Hs) as (A & B). rewrite (whole_positions _ _ Hw) in *.
  apply forward_on_time; [exact A|]. eapply Forall_impl; [|exact B]. cbn. intros. lia.
Qed.
End Engine.

(** ** Large inputs *)
Section Large.
Variable n : nat.
Definition large : list N := repeat LF n ++ repeat 0x61 n.
Lemma newlines_repeat : newlines large = n.
Proof.
  unfold large. rewrite newlines_app. replace (newlines (repeat 0x61 n)) with 0%nat.
  - unfold newlines. induction n as [|m IH]; [reflexivity|]. cbn [repeat filter]. change (LF =? LF) with true. cbn [length]. cbn [length] in IH. lia.
  - symmetry. apply newlines_none. intros i H. apply nth_error_In, repeat_spec in H. discriminate.
Qed.
Lemma last_line_repeat : last_line large = repeat 0x61 n.
Proof.
  assert (H : line_begins large (length large) (length large - length (last_line (firstn (length large) large)))) by (apply begins_last_line; lia).
  rewrite firstn_all in H.
  assert (H' : line_begins large (length large) n).
  { unfold line_begins, large. rewrite app_length, !repeat_length. split; [lia|]. split.
    - destruct n as [|m]; [now left|right]. rewrite nth_error_app1 by (rewrite repeat_length; lia).
      destruct (nth_error (repeat LF (S m)) (S m - 1)) as [x|] eqn:Ex; [now apply nth_error_In, repeat_spec in Ex; subst|].
      apply nth_error_None in Ex. rewrite repeat_length in Ex. lia.
    - intros i Hi HF. rewrite nth_error_app2 in HF by (rewrite repeat_length; lia). apply nth_error_In, repeat_spec in HF. discriminate. }
  pose proof (line_begins_unique _ _ _ _ H H') as HL. destruct (last_line_split large) as (pre & Hs & _).
  assert (Hlen : length pre = n).
  { assert (length large = length pre + length (last_line large))%nat by (rewrite Hs at 1; apply app_length). lia. }
  assert (HS : skipn n large = last_line large).
  { rewrite Hs at 1. rewrite <- Hlen. rewrite skipn_app, skipn_all, Nat.sub_diag. reflexivity. }
  rewrite <- HS. unfold large. rewrite skipn_app, repeat_length, Nat.sub_diag. rewrite skipn_all2 by (rewrite repeat_length; lia). reflexivity.
Qed.
End Large.

Lemma dec_size_8 n : 9999999 < n -> n < 99999999 -> dec_size n = 8%nat.
Proof. intros H H'. unfold dec_size. repeat match goal with |- context [n <? ?x] => destruct (N.ltb_spec n x); [lia || reflexivity|] end. lia. Qed.
Lemma text_before_all l : text_before l (length l) = l.
Proof.
  unfold text_before. rewrite firstn_all. replace (nth_error l (length l)) with (@None N) by (symmetry; apply nth_error_None; lia).
  now destruct (nth_error l (pred (length l))).
Qed.
Lemma large_asserts tn opts name k n : N.of_nat n = 9999999 -> 1 <= vo_max_tree_depth opts ->
  trace_output tn (InText Default) (large n) opts
    [GStart 0; PStart name 0; Token k 0 (length (large n)); PFinish (length (large n)); GFinish (length (large n))] = Asserts.
Proof.
  intros Hn Hd. rewrite trace_output_eq. unfold t_trace. destruct (_ <? _)%nat; [reflexivity|].
  set (inp := large n). set (N := length inp).
  assert (HN : N = (n + n)%nat) by (unfold N, inp, large; rewrite app_length, !repeat_length; reflexivity).
  assert (Hx : forall x, In x inp -> x = LF \/ x = 0x61).
  { intros x Hx. apply in_app_or in Hx as [Hx|Hx]; apply repeat_spec in Hx; auto. }
  assert (Hi : text_units Default inp).
  { split; [apply Forall_forall; intros x H; destruct (Hx x H) as [->| ->]; reflexivity|]. intros H. destruct (Hx _ H); discriminate. }
  assert (HL : N.of_nat (length inp) + 1 < 2 ^ 32) by (fold N; change (2 ^ 32) with 4294967296; lia).
  destruct (spot_exists (InText Default) inp Hi HL 0 ltac:(lia)) as (lo & Hlo).
  destruct (spot_exists (InText Default) inp Hi HL N ltac:(lia)) as (lo' & Hlo').
  assert (E0 : find_place (InText Default) inp input_anchor 0 = Done lo).
  { destruct Hlo as (H & _). unfold counted in H. unfold find_place. now rewrite H. }
  assert (HP : place_text lo = Done (str " 1:  1")).
  { destruct Hlo as (_ & _ & H1 & H2). unfold place_text. rewrite H1, H2.
    replace (line_of (InText Default) inp 0) with 1%nat by reflexivity.
    replace (column_of (InText Default) inp 0) with 1%nat; [reflexivity|]. cbn [column_of]. unfold text_before.
    destruct (nth_error inp (pred 0)), (nth_error inp 0); reflexivity. }
  assert (Ha : anchor_of lo = input_anchor).
  { destruct Hlo as (_ & H1 & H2 & _). unfold anchor_of. rewrite H1, H2. reflexivity. }
  assert (E1 : find_place (InText Default) inp input_anchor N = Done lo').
  { destruct Hlo' as (H & _). unfold counted in H. unfold find_place. now rewrite H. }
  assert (HP' : place_text lo' = Asserts).
  { destruct Hlo' as (_ & _ & H1 & H2). unfold place_text. rewrite H1, H2.
    assert (HLn : N.of_nat (line_of (InText Default) inp N) = 10000000).
    { cbn [line_of]. unfold N. rewrite firstn_all. unfold inp. rewrite newlines_repeat. lia. }
    assert (HCn : N.of_nat (column_of (InText Default) inp N) = 10000000).
    { cbn [column_of]. unfold N. rewrite text_before_all. unfold inp. rewrite last_line_repeat, repeat_length. lia. }
    rewrite HLn, HCn. reflexivity. }
  assert (H1 : (1 <=? max_depth opts)%nat = true) by (apply Nat.leb_le; unfold max_depth; lia).
  assert (S1 : exists t, t_event tn (InText Default) inp opts (0%nat, input_anchor, []) (PStart name 0) = Done (t, (1%nat, input_anchor, [input_anchor]))).
  { unfold t_event. cbn [position fst snd]. rewrite E0. cbn [bind]. unfold t_prefix. rewrite HP. cbn [Nat.leb visible andb omap bind moves]. rewrite Ha. eauto. }
  assert (S2 : exists t, t_event tn (InText Default) inp opts (1%nat, input_anchor, [input_anchor]) (Token k 0 N) = Done (t, (1%nat, input_anchor, [input_anchor]))).
  { unfold t_event. cbn [position fst snd]. rewrite E0. cbn [bind]. unfold t_prefix. rewrite HP, H1. cbn [andb omap bind moves].
    destruct (visible inp (Token k 0 N)); cbn [bind]; eauto. }
  assert (S3 : t_event tn (InText Default) inp opts (1%nat, input_anchor, [input_anchor]) (PFinish N) = Asserts).
  { unfold t_event. cbn [position fst snd]. rewrite E1. cbn [bind]. unfold t_prefix. rewrite HP', H1. reflexivity. }
  destruct S1 as (t1 & S1), S2 as (t2 & S2). cbn [t_events].
  change (t_event tn (InText Default) inp opts (0%nat, input_anchor, []) (GStart 0)) with (Done ([] : list BinNums.N, (0%nat, input_anchor, [] : list anchor))).
  cbn [bind fst snd]. rewrite S1. cbn [bind fst snd]. rewrite S2. cbn [bind fst snd]. rewrite S3. reflexivity.
Qed.
