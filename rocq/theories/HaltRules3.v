(** Every rule combinator ends when the rules below it do, third part. *)
From Verif Require Import Prelude RuleModel RuleSpec RuleDen RuleGood RuleMono RuleSem HaltBase HaltRules HaltRules2.
Close Scope N_scope.

Section Rules.
Variable inp : list N.
Variable prods : nat -> production.
Notation eng := (eng inp prods).
Notation ev := (ev inp prods).
Notation ok := (ok inp).
Notation fw := (fw inp).
Notation EvG := (EvG inp prods).
Notation EvR := (EvR inp prods).
Notation TH := (TH inp prods).
Notation CH := (CH inp prods).
Notation MH := (MH inp prods).
Notation WH := (WH inp prods).
Notation RH := (RH inp prods).
Notation deep := (deep inp).

Variable c : cx.
Variable d : nat.
Hypothesis HW : WH c.
Notation full := (full inp prods c d).
Notation goes := (goes inp prods c d).
Notation goesf := (goesf inp prods c d).
Notation bites := (bites inp prods c d).

Local Definition dok := deep_ok inp c d.
Local Definition dto := deep_to inp prods c d.
Hint Resolve dok : core.
Hint Extern 1 (HaltBase.deep _ _ _ ?s1) =>
  match goal with H : HaltBase.fw _ ?s s1 |- _ => apply (dto s s1); [|exact H] end : core.
Hint Extern 2 (HaltBase.fw _ ?s ?s1) => (eapply fw_k; [eassumption|reflexivity|reflexivity]) : core.
Local Lemma demits s es : deep c d s -> deep c d (emits es s).
Proof. exact (fun H => H). Qed.
Hint Resolve demits : core.
Local Definition mkf := mk_full inp prods c d.
Local Definition mkp := mk_plain inp prods c d.
Local Definition fparse := f_parse inp prods c d.
Local Definition ffinish := f_finish inp prods c d.
Local Definition frun := f_run inp prods c d.
Local Definition frunf := f_runf inp prods c d.


Notation fullin := (HaltBase.full inp prods).

Lemma G_unshift b s F : EvG b s F -> EvG b s (fun E => F (step inp prods E)).
Proof.
  intros (x & Hx & N & HN). exists x. split; auto. exists N. intros n Hn. apply (HN (S n)). lia.
Qed.

(** ** Productions *)
Lemma G_prod_after b p s X : deep c d s -> EvR s X ->
  EvG b s (fun E k a => prod_after prods E c p k a (X E)).
Proof.
  intros Hs (x & Hx & He).
  apply (G_on inp prods b s X x (fun E x k a => prod_after prods E c p k a x) He).
  destruct x as [[] s1 m| |]; cbn [gr] in Hx; cbn [prod_after]; try apply G_crash; try tauto;
    destruct Hx as [Hx ->].
  - apply G_false. exact Hx.
  - unfold prod_finish. assert (H1 : deep c d (emit (EPFinish p (pos s1)) s1)) by (eapply dto; [exact Hs|exact Hx]).
    apply (G_l inp prods b s (emit (EPFinish p (pos s1)) s1)); [exact Hx|]. destruct (p_token (prods p)).
    + apply (G_args inp prods b _ (fun E k a => ws_then E c k (emit (EPFinish p (pos s1)) s1) a)).
      apply G_ws; auto.
    + apply G_kv. auto.
Qed.

Lemma full_prod p : WH (child_cx prods c p) -> fullin (child_cx prods c p) d (p_rule (prods p)) ->
  full (RProd p).
Proof.
  intros Hw Hb.
  assert (Hd : forall s, deep c d s -> deep (child_cx prods c p) d s) by (intros s H; exact H).
  apply mkf.
  - intros vs q Hq. destruct Hb as (HT & _). destruct (HT vs q Hq) as (x & Hx & He).
    exists (match x with BR ok b => BR ok (BAt q b) | x => x end). split; [destruct x; congruence|].
    destruct He as [N He]. exists N. intros n Hn. cbn [try_step]. rewrite He by exact Hn. now destruct x.
  - intros b. destruct Hb as (_ & HC & _). destruct (HC (b_in b)) as (es & N & HN).
    eexists. exists N. intros n Hn. cbn [cancel_step]. rewrite HN by exact Hn. reflexivity.
  - intros s b Hs. cbn [parse_step]. unfold p_prod.
    set (s0 := emit (EPStart p (pos s)) s).
    assert (H0 : deep c d s0) by exact Hs.
    apply (G_l inp prods b s s0); [auto|].
    assert (Hbody : forall s, deep c d s -> EvR s (fun E => e_parse E (child_cx prods c p) (p_rule (prods p)) final s [])).
    { intros s1 H1. apply (f_run inp prods (child_cx prods c p) d); auto. }
    destruct (p_ws (prods p)).
    + apply G_prod_after; auto.
      apply (R_bind inp prods false s0 (fun E k a => ws_then E (child_cx prods c p) k s0 a)
        (fun E => Cont false (fun s _ => e_parse E (child_cx prods c p) (p_rule (prods p)) final s []))); auto.
      * apply G_ws; auto.
      * intros s1 vs Hf. cbn [k_fn]. apply Hbody. auto.
    + apply G_prod_after; auto.
  - intros s b bs n Hs Ht. cbn [finish_step]. cbn [try_step] in Ht.
    destruct (e_try (eng n) (p_rule (prods p)) (vars s) (pos s)) as [ok b0| |] eqn:He; try discriminate.
    injection Ht as -> <-. cbn [b_in b_at].
    apply (G_l inp prods b s (emit (EPStart p (pos s)) s)); [auto|].
    apply G_prod_after; auto.
    apply (f_runf inp prods (child_cx prods c p) d); auto.
    apply (tries_of inp prods n _ (emit (EPStart p (pos s)) s)). exact He.
Qed.

Lemma G_inc b t s (J : engine -> cont -> list val -> st -> res) : deep c d s ->
  (depth s < cx_max c -> EvG b s (fun E k a => J E k a (setdepth (S (depth s)) s))) ->
  EvG b s (fun E k a => inc_depth c t s (J E k a)).
Proof.
  intros Hs HJ. unfold inc_depth. destruct (cx_max c =? 0); [apply G_crash|].
  destruct (Nat.leb_spec (cx_max c) (depth s)).
  - apply G_false. auto.
  - now apply HJ.
Qed.

Lemma G_depth b s P : deep c d s -> EvG false (setdepth (S (depth s)) s) P ->
  EvG b s (fun E k a => P E (depth_cont k) a).
Proof.
  intros Hs HP.
  assert (Hd : forall s1, fw (setdepth (S (depth s)) s) s1 -> fw s s1 /\ fw s (setdepth (pred (depth s1)) s1)).
  { intros s1. unfold HaltBase.fw. cbn. lia. }
  apply (G_through inp prods b false s (setdepth (S (depth s)) s) P
    (fun E k a => depth_cont k) (fun E k a x => x)); auto.
  - intros o s1 Hf. apply G_stop. now apply Hd.
  - intros l s1 vs Hf. destruct (Hd s1 Hf) as [H1 H2]. cbn [depth_cont k_fn].
    apply (G_posts inp prods b l s (setdepth (pred (depth s1)) s1)); [exact H2|].
    apply G_kv. apply fw_refl. eapply fw_ok; exact H2.
  - apply G_crash.
Qed.

Lemma deep_down s : deep c d s -> depth s < cx_max c -> exists d', d' < d /\ deep c d' (setdepth (S (depth s)) s).
Proof.
  intros [H1 H2] Hl. exists (cx_max c - S (depth s)). unfold HaltBase.deep, RuleDen.ok in *. cbn. lia.
Qed.

Lemma G_rec b p t s : (forall d', d' < d -> fullin c d' (RProd p)) -> deep c d s ->
  EvG b s (fun E k a => inc_depth c t s (fun s => e_parse E c (RProd p) (depth_cont k) s a)).
Proof.
  intros Hr Hs. apply (G_inc b t s (fun E k a s => e_parse E c (RProd p) (depth_cont k) s a)); auto.
  intros Hl. apply (G_depth b s (fun E k a => e_parse E c (RProd p) k (setdepth (S (depth s)) s) a)); auto.
  destruct (deep_down s Hs Hl) as (d' & Hd & H1). eapply (f_parse inp prods c d'); auto.
Qed.

Lemma full_rec p t : (forall d', d' < d -> fullin c d' (RProd p)) -> full (RRec p t).
Proof. intros Hr. apply mkp; auto. intros s b Hs. cbn [parse_step]. now apply G_rec. Qed.

Lemma full_recb p t : (forall d', d' < d -> fullin c d' (RProd p)) -> TH (RProd p) -> CH (RProd p) ->
  full (RRecB p t).
Proof.
  intros Hr HT HC. apply mkf.
  - apply (try_same inp prods (RRecB p t) (RProd p)); [reflexivity|exact HT].
  - apply (cancel_same inp prods (RRecB p t) (RProd p)); [reflexivity|exact HC].
  - intros s b Hs. cbn [parse_step]. now apply G_rec.
  - intros s b bs n Hs Ht. cbn [finish_step]. cbn [try_step] in Ht.
    apply (G_inc b t s (fun E k a s => e_finish E c (RProd p) bs (depth_cont k) s a)); auto.
    intros Hl. apply (G_depth b s (fun E k a => e_finish E c (RProd p) bs k (setdepth (S (depth s)) s) a)); auto.
    destruct (deep_down s Hs Hl) as (d' & Hd & H1). eapply (f_finish inp prods c d'); auto.
    apply (tries_of inp prods n _ (setdepth (S (depth s)) s)). exact Ht.
Qed.

Lemma R_do_action c' p s : WH c' -> fullin c' d (p_rule (prods p)) -> deep c' d s ->
  EvR s (fun E => do_action prods E c' p s).
Proof.
  intros Hw Hb Hs. unfold do_action.
  set (s0 := emit (EPStart p (pos s)) (emit (EGStart (pos s)) s)).
  assert (H0 : deep c' d s0) by exact Hs.
  assert (HX : EvR s0 (fun E => ws_then E c' (Cont false (e_parse E c' (p_rule (prods p)) final)) s0 [])).
  { apply (R_bind inp prods false s0 (fun E k a => ws_then E c' k s0 a)
      (fun E => Cont false (e_parse E c' (p_rule (prods p)) final))); auto.
    - apply G_ws; [exact Hw|apply H0].
    - intros s1 vs Hf. cbn [k_fn].
      assert (H1 : deep c' d s1) by (eapply (deep_to inp prods c' d); [exact H0|exact Hf]).
      assert (HP : EvG false s1 (fun E k a => e_parse E c' (p_rule (prods p)) k s1 a)).
      { now apply (f_parse inp prods c' d). }
      apply (R_bind inp prods false s1 _ (fun _ => final) vs HP); auto.
      intros s2 v2 H2. cbn. apply R_res. apply fw_refl. eapply fw_ok; exact H2. }
  destruct HX as (x & Hx & He). apply (R_on inp prods s _ x (fun E x =>
     match x with
     | Res (OTrue vs) s _ => Res (OTrue vs) (emit (EGFinish (pos s)) (emit (EPFinish p (pos s)) s)) 0
     | Res OFalse s _ => Res OFalse (emit (EGCancel (pos s)) (emit (EPCancel p (pos s)) s)) 0
     | Res _ _ _ => Crash
     | NoFuel => NoFuel
     | Crash => Crash
     end) He).
  destruct x as [[] s1 m| |]; cbn [gr] in Hx; try apply R_crash; try tauto; destruct Hx as [Hx ->];
    apply R_res; exact Hx.
Qed.

Lemma full_sub p : WH (Cx (p_ws (prods p)) (cx_max c)) -> fullin (Cx (p_ws (prods p)) (cx_max c)) d (p_rule (prods p)) ->
  full (RSub p).
Proof.
  intros Hw Hb. apply mkp; auto. intros s b Hs. cbn [parse_step].
  pose proof (R_do_action _ p (setvars [] s) Hw Hb Hs) as HR.
  apply (G_l inp prods b s (setvars [] s)); [auto|].
  destruct HR as (x & Hx & He).
  apply (G_on inp prods b (setvars [] s) _ x (fun E x k a => match x with
      | Res (OTrue vs) s1 _ => k_fn k (setvars (vars s) s1) (a ++ [VProd p vs])
      | Res OFalse s1 _ => Res OFalse (setvars (vars s) s1) 0
      | Res _ _ _ => Crash
      | NoFuel => NoFuel
      | Crash => Crash
      end) He).
  destruct x as [[] s1 m| |]; cbn [gr] in Hx; try apply G_crash; try tauto; destruct Hx as [Hx ->].
  - apply G_false. exact Hx.
  - apply G_kv. exact Hx.
Qed.

(** ** Whitespace *)
Lemma full_ws r : WH (Cx (Some r) 0) -> full (RWs r).
Proof.
  intros H. apply mkp; auto. intros s b Hs. cbn [parse_step].
  unfold HaltBase.WH in H. cbn [cx_ws] in H.
  apply (H s (dok s Hs) b (fun E k a s => k_fn k s a)). intros s1 Hf. apply G_k.
  apply fw_refl. eapply fw_ok; exact Hf.
Qed.

Lemma G_nows b s P : EvG false (setwsf false s) P -> deep c d s ->
  EvG b s (fun E k a => P E (nows_cont E c k) a).
Proof.
  intros HP Hs. apply (G_l inp prods b s (setwsf false s)); [auto|].
  apply (G_bind inp prods b false _ P (fun E k => nows_cont E c k)); auto.
  intros s1 Hf. cbn [nows_cont k_fn]. assert (H1 : deep c d (setwsf true s1)) by (eapply dto; [exact Hs|exact Hf]).
  apply (G_l inp prods b s1 (setwsf true s1)); [apply (fw_refl inp s1 (fw_ok inp _ _ Hf))|].
  apply G_ws; auto.
Qed.

Lemma full_nows r : full r -> full (RNoWs r).
Proof.
  intros Hr. apply mkf.
  - apply (try_same inp prods (RNoWs r) r); [reflexivity|apply Hr].
  - apply (cancel_same inp prods (RNoWs r) r); [reflexivity|apply Hr].
  - intros s b Hs. cbn [parse_step].
    assert (H1 : EvG b s (fun E k a => e_parse E c r (nows_cont E c k) (setwsf false s) a)).
    { apply (G_nows b s (fun E k a => e_parse E c r k (setwsf false s) a)); auto. apply fparse; auto. }
    destruct (cx_ws c); auto. apply fparse; auto.
  - intros s b bs n Hs Ht. cbn [finish_step].
    apply (G_nows b s (fun E k a => e_finish E c r bs k (setwsf false s) a)); auto.
    apply ffinish; auto. apply (tries_of inp prods n _ (setwsf false s)). exact Ht.
Qed.

(** ** Lookahead *)
Lemma full_peek r t : MH r -> full (RPeek r t).
Proof.
  intros HM. apply mkf.
  - apply (try_tok inp prods _ r (fun _ p ok e => BR ok (BRange p e)) HM); [reflexivity|discriminate].
  - intros b. eexists. exists 0. intros. reflexivity.
  - intros s b Hs. cbn [parse_step].
    apply (G_match inp prods b s r (fun E ok e k a =>
      k_fn k (emit (EBack (pos s) e) (if ok then s else emit (EError t (pos s) e) s)) a)); auto.
    intros f e _. apply G_k. destruct f; auto.
  - intros s b bs n Hs _. cbn [finish_step]. apply G_k. auto.
Qed.
Lemma full_peekn r t : MH r -> full (RPeekN r t).
Proof.
  intros HM. apply mkf.
  - apply (try_tok inp prods _ r (fun _ p ok e => BR (negb ok) (BRange p e)) HM); [reflexivity|discriminate].
  - intros b. eexists. exists 0. intros. reflexivity.
  - intros s b Hs. cbn [parse_step].
    eapply G_ext; [|apply (G_match inp prods b s r (fun E f e k a =>
      if f then k_fn k (setpos e (emit (ERFinish e) (emit (EToken KError (pos s) e)
                   (emit (ERStart (pos s)) (emit (EError t (pos s) e) s))))) a
      else k_fn k (emit (EBack (pos s) e) s) a) HM); auto].
    + intros E k a _. cbn beta. destruct (tmatch inp E r (pos s)) as [[]| |]; reflexivity.
    + intros [] e He; apply G_k; auto. unfold HaltBase.fw. cbn. lia.
  - intros s b bs n Hs _. cbn [finish_step]. apply G_k. auto.
Qed.
Lemma full_look f t : full (RLook f t).
Proof.
  apply mkf.
  - intros vs p _. destruct (search_from inp f p) as [[o b0] e] eqn:Hs. exists (BR o (BRange p e)).
    split; [discriminate|]. exists 0. intros n _. cbn [try_step]. now rewrite Hs.
  - intros b. eexists. exists 0. intros. reflexivity.
  - intros s b Hs. cbn [parse_step]. destruct (search_from inp f (pos s)) as [[ok b0] e].
    apply G_k. destruct ok; auto.
  - intros s b bs n Hs _. cbn [finish_step]. apply G_k. auto.
Qed.

End Rules.
