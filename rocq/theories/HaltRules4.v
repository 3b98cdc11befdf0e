(** Every rule combinator ends when the rules below it do, fourth part. *)
From Verif Require Import Prelude RuleModel RuleSpec RuleDen RuleGood RuleMono RuleSem HaltBase HaltRules HaltRules2 HaltRules3.
Close Scope N_scope.

Section Rules.
Variable inp : list N.
Variable prods : nat -> production.
Notation eng := (eng inp prods).
Notation ev := (ev inp prods).
Notation ok := (ok inp).
Notation fw := (fw inp).
Notation EvG := (EvG inp prods).
Notation EvR := (EvR inp prods).
Notation TH := (TH inp prods).
Notation CH := (CH inp prods).
Notation MH := (MH inp prods).
Notation WH := (WH inp prods).
Notation RH := (RH inp prods).
Notation deep := (deep inp).

Variable c : cx.
Variable d : nat.
Hypothesis HW : WH c.
Notation full := (full inp prods c d).
Notation goes := (goes inp prods c d).
Notation goesf := (goesf inp prods c d).
Notation bites := (bites inp prods c d).

Local Definition dok := deep_ok inp c d.
Local Definition dto := deep_to inp prods c d.
Hint Resolve dok : core.
Hint Extern 1 (HaltBase.deep _ _ _ ?s1) =>
  match goal with H : HaltBase.fw _ ?s s1 |- _ => apply (dto s s1); [|exact H] end : core.
Hint Extern 2 (HaltBase.fw _ ?s ?s1) => (eapply fw_k; [eassumption|reflexivity|reflexivity]) : core.
Local Lemma demits s es : deep c d s -> deep c d (emits es s).
Proof. exact (fun H => H). Qed.
Hint Resolve demits : core.
Local Definition mkf := mk_full inp prods c d.
Local Definition mkp := mk_plain inp prods c d.
Local Definition fparse := f_parse inp prods c d.
Local Definition ffinish := f_finish inp prods c d.
Local Definition frun := f_run inp prods c d.
Local Definition frunf := f_runf inp prods c d.



Notation fullin := (HaltBase.full inp prods).

(** ** Repetition *)
Lemma full_trailing sp : full (fst sp) -> full (trailing_rule sp).
Proof.
  intros H. unfold trailing_rule. destruct (snd sp).
  - now apply full_nsep.
  - now apply full_if.
  - apply full_else.
Qed.

Lemma R_rep_more item sep n : full item -> sepH full sep -> forall s acc, deep c d s ->
  EvR s (fun E => rep_more E c item sep n s acc).
Proof.
  intros Hi Hsep. induction n as [|n IH]; intros s acc Hs; cbn [rep_more].
  - destruct sep as [[sr k]|]; [|apply R_res; auto].
    apply (R_delim inp prods s _ (fun E s v => Res (OTrue [VSink (push v acc)]) s 0)).
    + apply frun; auto. now apply full_trailing.
    + intros s1 vs Hf _. apply R_res. apply fw_refl. eapply fw_ok; exact Hf.
  - assert (Hn : forall s acc, deep c d s -> EvR s (fun E =>
      delim (e_parse E c item final s []) (fun s v => rep_more E c item sep n s (push v acc)))).
    { intros s1 acc1 H1. apply (R_delim inp prods s1 _ (fun E s v => rep_more E c item sep n s (push v acc1))).
      - now apply frun.
      - intros s2 vs Hf _. apply IH. auto. }
    destruct sep as [[sr k]|]; auto.
    apply (R_delim inp prods s _ (fun E s v => delim (e_parse E c item final s [])
       (fun s v0 => rep_more E c item (Some (sr, k)) n s (push v0 (push v acc))))).
    + apply frun; auto.
    + intros s1 vs Hf _. apply Hn. auto.
Qed.

Lemma G_rep_run b m item sep s vs : full item -> sepH full sep -> deep c d s ->
  EvG b s (fun E k a => rep_run E c m item sep k a s vs).
Proof.
  intros Hi Hsep Hs. unfold rep_run. destruct (count_of vs) as [n|]; [|apply G_crash].
  apply (G_delim inp prods b s (fun E => rep_loop E c item sep n s) (fun E k a s' v =>
    k_fn k s' (match m with
                   | RepDiscard => a
                   | RepList => a ++ v
                   | RepCapture => a ++ [VLex (pos s) (pos s')]
                   end))).
  - unfold rep_loop. destruct n as [|n]; [apply R_res; auto|].
    apply (R_delim inp prods s _ (fun E s v => rep_more E c item sep n s (push v []))).
    + now apply frun.
    + intros s1 v1 Hf _. apply R_rep_more; auto.
  - intros s1 v1 Hf _. assert (H1 : deep c d s1) by auto. destruct m; [apply G_k|apply G_kv|apply G_kv]; auto.
Qed.

Lemma full_rep m count item sep : full count -> full item -> sepH full sep -> full (RRep m count item sep).
Proof.
  intros Hc Hi Hsep. apply mkf.
  - apply (try_same inp prods (RRep m count item sep) count); [reflexivity|apply Hc].
  - apply (cancel_same inp prods (RRep m count item sep) count); [reflexivity|apply Hc].
  - intros s b Hs. cbn [parse_step].
    apply (G_delim inp prods b s _ (fun E k a => rep_run E c m item sep k a)).
    + now apply frun.
    + intros s1 v1 Hf _. apply G_rep_run; auto.
  - intros s b bs n Hs Ht. cbn [finish_step].
    apply (G_delim inp prods b s _ (fun E k a => rep_run E c m item sep k a)).
    + apply frunf; auto. eapply tries_of; exact Ht.
    + intros s1 v1 Hf _. apply G_rep_run; auto.
Qed.

(** ** Combination *)
Lemma full_combit i : full (RCombIt i).
Proof.
  apply mkp; auto. intros s b Hs. cbn [parse_step].
  eapply G_ext with (F' := fun E k a => Res (sto (SItem i []) a) s 0).
  - intros E k a _. cbn. now rewrite app_nil_r.
  - apply G_stop. auto.
Qed.

Lemma full_br_inv r l : full (RBr r l) -> TH r /\ CH r.
Proof.
  intros (HT & HC & _). split.
  - intros vs p Hp. destruct (HT vs p Hp) as (x & Hx & He). exists x. split; auto. apply ev_shift in He. exact He.
  - intros b. destruct (HC b) as (es & He). exists es. apply ev_shift in He. exact He.
Qed.

Lemma seq_app E l l' k : seq_cont E c (l ++ l') k = seq_cont E c l (seq_cont E c l' k).
Proof. induction l; cbn; auto. now rewrite IHl. Qed.

Lemma full_br_app r l x : full (RBr r l) -> full x -> full (RBr r (l ++ [x])).
Proof.
  intros Hr Hx. destruct (full_br_inv r l Hr) as [HT HC].
  assert (HK : forall b s, deep c d s -> EvG b s (fun E k a => k_fn (seq_cont E c [x] k) s a)).
  { intros b s Hs. cbn [seq_cont k_fn]. now apply fparse. }
  apply mkf.
  - apply (try_same inp prods (RBr r (l ++ [x])) r); [reflexivity|auto].
  - apply (cancel_same inp prods (RBr r (l ++ [x])) r); [reflexivity|auto].
  - intros s b Hs. cbn [parse_step]. unfold p_seq.
    eapply G_ext with (F' := fun E k a => parse_step inp prods E c (RBr r l) (seq_cont E c [x] k) s a).
    { intros E k a _. cbn [parse_step]. unfold p_seq. now rewrite app_comm_cons, seq_app. }
    apply (G_bind inp prods b (alias x && b) s (fun E k a => parse_step inp prods E c (RBr r l) k s a)
      (fun E k => seq_cont E c [x] k)).
    + apply (G_unshift inp prods (alias x && b) s (fun E k a => e_parse E c (RBr r l) k s a)). now apply fparse.
    + intros E k <-. reflexivity.
    + intros s1 Hf. apply HK. auto.
  - intros s b bs n Hs Ht. cbn [finish_step].
    eapply G_ext with (F' := fun E k a => finish_step inp prods E c (RBr r l) bs (seq_cont E c [x] k) s a).
    { intros E k a _. cbn [finish_step]. now rewrite seq_app. }
    apply (G_bind inp prods b (alias x && b) s (fun E k a => finish_step inp prods E c (RBr r l) bs k s a)
      (fun E k => seq_cont E c [x] k)).
    + apply (G_unshift inp prods (alias x && b) s (fun E k a => e_finish E c (RBr r l) bs k s a)).
      apply ffinish; auto. apply (tries_of inp prods (S n)). exact Ht.
    + intros E k <-. reflexivity.
    + intros s1 Hf. apply HK. auto.
Qed.

Lemma full_comb_alts rs : Forall full rs -> forall i, Forall full (comb_alts i rs).
Proof.
  induction 1 as [|r rs Hr _ IH]; intros i; cbn [comb_alts]; [constructor|].
  assert (H : full (RBr r [RCombIt i])).
  { apply full_br; auto. constructor; auto. apply full_combit. }
  destruct r; constructor; auto. apply full_br_app; auto. apply full_combit.
Qed.

Definition goesit (r : rule) : Prop := forall s i vs s1, deep c d s ->
  ev (fun E => e_parse E c r final s []) (Res (OItem i vs) s1 0) -> pos s < pos s1.

Lemma R_comb dup al n : full al -> goesit al -> forall m cnt h s acc, deep c d s -> length inp - pos s <= m ->
  EvR s (fun E => e_comb E c dup al n cnt h s acc).
Proof.
  intros Ha Hg. induction m as [m IH] using lt_wf_ind. intros cnt h s acc Hs Hm.
  apply R_shift. cbn [step e_comb]. unfold comb_step. destruct (n <=? cnt); [apply R_res; auto|].
  destruct (frun al s Ha Hs) as (x & Hx & He).
  apply (R_on inp prods s _ x (fun E x => match x with
    | Res OFalse s1 _ => Res OFalse s1 0
    | Res OBreak s1 _ => Res (OTrue [VSink acc]) s1 0
    | Res (OItem i vs) s1 _ =>
        if nth i h false
        then e_comb E c dup al n cnt h (emit (EError dup (pos s) (pos s1)) s1) acc
        else e_comb E c dup al n (S cnt) (set_nth i h) s1 (push vs acc)
    | Res (OTrue _) _ _ => Crash
    | NoFuel => NoFuel
    | Crash => Crash
    end) He).
  destruct x as [[] s1 m1| |]; cbn [gr] in Hx; try apply R_crash; try tauto; destruct Hx as [Hx ->];
    try (apply R_res; exact Hx).
  pose proof (Hg s i vs s1 Hs He) as Hp.
  assert (Hl : length inp - pos s1 < m) by (destruct Hx; lia).
  assert (H1 : deep c d s1) by auto.
  destruct (nth i h false).
  - apply (R_l inp prods s (emit (EError dup (pos s) (pos s1)) s1)); [exact Hx|]. apply (IH _ Hl); auto.
  - apply (R_l inp prods s s1); [exact Hx|]. apply (IH _ Hl); auto.
Qed.

Lemma full_comb dup els rs : Forall full rs -> match els with Some e => full e | None => True end ->
  goesit (comb_choice els rs) -> full (RComb dup els rs).
Proof.
  intros Hrs He Hg. apply mkp; auto. intros s b Hs. cbn [parse_step].
  apply (G_delim inp prods b s _ (fun E k a => sink_finish k a)).
  - eapply R_comb; [| exact Hg|exact Hs|apply le_n]. unfold comb_choice. apply full_alts. apply Forall_app.
    split; [now apply full_comb_alts|]. destruct els; auto.
  - intros s1 vs Hf _. apply G_kv. apply fw_refl. eapply fw_ok; exact Hf.
Qed.

(** ** Flags *)
Lemma R_flags r t : full r -> goesf r -> forall m z s, deep c d s -> length inp - pos s <= m ->
  EvR s (fun E => e_flags E c r t z s).
Proof.
  intros Hr Hg. induction m as [m IH] using lt_wf_ind. intros z s Hs Hm.
  apply R_shift. cbn [step e_flags]. unfold flags_step.
  eapply R_ext; [|apply (R_try inp prods s r (fun E b =>
      delim (e_finish E c r b final s []) (fun s1 vs =>
        match vs with
        | [VInt f] =>
            e_flags E c r t (Z.lor z f) (if Z.eqb (Z.land z f) f
                      then emit (EError t (pos s) (pos s1)) s1 else s1)
        | _ => Crash
        end)) (fun E b => cancel_then E r b s (fun s => Res (OTrue [VInt z]) s 0)))]; [|apply Hr|auto| |].
  - intros E. cbn beta. destruct (e_try E r (vars s) (pos s)) as [[]| |]; reflexivity.
  - intros bs Ht. apply (R_delim inp prods s _ (fun E s1 vs => match vs with
        | [VInt f] =>
            e_flags E c r t (Z.lor z f) (if Z.eqb (Z.land z f) f
                      then emit (EError t (pos s) (pos s1)) s1 else s1)
        | _ => Crash
        end)).
    + now apply frunf.
    + intros s1 vs Hf He. pose proof (Hg s bs vs s1 Hs Ht He) as Hp.
      assert (Hl : length inp - pos s1 < m) by (destruct Hf; lia).
      assert (H1 : deep c d s1) by auto.
      destruct vs as [|[] [|]]; try apply R_crash.
      destruct (Z.land z z0 =? z0)%Z.
      * apply (R_l inp prods s1 (emit (EError t (pos s) (pos s1)) s1)); [auto|]. apply (IH _ Hl); auto.
      * apply (IH _ Hl); auto.
  - intros bs _. apply (R_cancel inp prods s r bs (fun E s => Res (OTrue [VInt z]) s 0)); [apply Hr|].
    intros es. apply R_res. auto.
Qed.

Lemma full_flags r z t : full r -> goesf r -> full (RFlags r z t).
Proof.
  intros Hr Hg. apply mkp; auto. intros s b Hs. cbn [parse_step].
  apply (G_delim inp prods b s _ (fun E k a s v => k_fn k s (a ++ v))).
  - eapply R_flags; eauto.
  - intros s1 vs Hf _. apply G_kv. apply fw_refl. eapply fw_ok; exact Hf.
Qed.

Lemma full_flag r x y : full r -> full (RFlag r x y).
Proof.
  intros Hr. apply mkp; auto. intros s b Hs. cbn [parse_step].
  apply (G_try inp prods b s r (fun E bs k a => e_finish E c r bs k s (a ++ [VInt x]))
           (fun E bs k a => cancel_then E r bs s (fun s => k_fn k s (a ++ [VInt y])))); [apply Hr|auto| |].
  - intros bs H. apply (G_args inp prods b s (fun E k a => e_finish E c r bs k s a)). now apply ffinish.
  - intros bs _. apply (G_cancel inp prods b s r bs (fun E k a s => k_fn k s (a ++ [VInt y]))); [apply Hr|].
    intros es. apply G_kv. auto.
Qed.

(** ** Context variables *)
Lemma full_new id v : full (RCtxNew id v).
Proof.
  apply mkp; auto. intros s b Hs. cbn [parse_step].
  exists (DNext [length (vars s)] (setvars ((id, v) :: vars s) s) []). split; [cbn [gd]; auto|].
  exists 0. intros n _ k a _. cbn [apply]. rewrite app_nil_r. unfold p_create. cbn [posts fold_left].
  now destruct (k_fn k (setvars ((id, v) :: vars s) s) a).
Qed.

Lemma G_var b id s (J : engine -> cont -> list val -> val -> res) :
  (forall v, EvG b s (fun E k a => J E k a v)) -> EvG b s (fun E k a => with_var id s (J E k a)).
Proof. intros H. unfold with_var. destruct (vget id (vars s)); auto. apply G_crash. Qed.

Lemma full_add id z : full (RCtxAdd id z).
Proof.
  apply mkp; auto. intros s b Hs. cbn [parse_step]. apply (G_var b id s (fun E k a v => match v with
        | VInt z0 => k_fn k (setvars (vset id (VInt (z0 + z)) (vars s)) s) a | _ => Crash end)).
  intros []; try apply G_crash. apply G_k. auto.
Qed.
Lemma full_set id x : full (RCtxSet id x).
Proof.
  apply mkp; auto. intros s b Hs. cbn [parse_step].
  apply (G_var b id s (fun E k a v => k_fn k (setvars (vset id (VBool x) (vars s)) s) a)).
  intros. apply G_k. auto.
Qed.
Lemma full_toggle id : full (RCtxToggle id).
Proof.
  apply mkp; auto. intros s b Hs. cbn [parse_step]. apply (G_var b id s (fun E k a v => match v with
        | VBool b => k_fn k (setvars (vset id (VBool (negb b)) (vars s)) s) a | _ => Crash end)).
  intros []; try apply G_crash. apply G_k. auto.
Qed.
Lemma full_is id v : full (RCtxIs id v).
Proof.
  apply mkf.
  - intros vs p _. exists (match vget id vs with Some w => BR (val_eqb w v) BNone | None => BCrash end).
    split; [destruct (vget id vs); discriminate|]. exists 0. reflexivity.
  - now apply cancel_nil.
  - intros s b Hs. cbn [parse_step]. apply G_k. auto.
  - intros s b bs n Hs _. cbn [finish_step]. apply G_k. auto.
Qed.
Lemma full_val id : full (RCtxVal id).
Proof.
  apply mkp; auto. intros s b Hs. cbn [parse_step].
  apply (G_var b id s (fun E k a v => k_fn k s (a ++ [v]))). intros. apply G_kv. auto.
Qed.
Lemma full_eq id ids : full (RCtxEq id ids).
Proof.
  apply mkf.
  - intros vs p _. exists (match vget id vs with
      | None => BCrash
      | Some v => match all_eq v ids vs with Some ok => BR ok BNone | None => BCrash end
      end).
    split; [destruct (vget id vs); [destruct all_eq|]; discriminate|]. exists 0. reflexivity.
  - now apply cancel_nil.
  - intros s b Hs. cbn [parse_step]. apply (G_var b id s (fun E k a v => match all_eq v ids (vars s) with
        | None => Crash
        | Some ok => k_fn k (if ok then s else emit (EError TCounts (pos s) (pos s)) s) a
        end)).
    intros v. destruct (all_eq v ids (vars s)) as [ok|]; [|apply G_crash]. apply G_k. destruct ok; auto.
  - intros s b bs n Hs _. cbn [finish_step]. apply G_k. auto.
Qed.

Lemma G_push b id sg p s P : EvG false s P -> EvG b s (fun E k a => P E (push_cont id sg p k) a).
Proof.
  intros HP. apply (G_bind inp prods b false s P (fun E k => push_cont id sg p k)); auto.
  intros s1 Hf. cbn [push_cont k_fn].
  apply (G_var b id s1 (fun E k a v => match v with
      | VInt z => k_fn k (setvars (vset id (VInt (z + Z.of_nat (pos s1 - p) * sg)) (vars s1)) s1) a
      | _ => Crash
      end)).
  intros []; try apply G_crash. apply G_k. exact (fw_refl inp s1 (fw_ok inp _ _ Hf)).
Qed.
Lemma full_push id sg r : full r -> full (RCtxPush id sg r).
Proof.
  intros Hr. apply mkf.
  - apply (try_same inp prods (RCtxPush id sg r) r); [reflexivity|apply Hr].
  - apply (cancel_same inp prods (RCtxPush id sg r) r); [reflexivity|apply Hr].
  - intros s b Hs. cbn [parse_step]. apply (G_push b id sg (pos s) s (fun E k a => e_parse E c r k s a)).
    now apply fparse.
  - intros s b bs n Hs Ht. cbn [finish_step].
    apply (G_push b id sg (pos s) s (fun E k a => e_finish E c r bs k s a)).
    apply ffinish; auto. eapply tries_of; exact Ht.
Qed.

(** ** Tokens that are captured *)
Lemma try_end n t s : deep c d s -> forall f e, tmatch inp (eng n) t (pos s) = TR f e -> pos s <= e <= length inp.
Proof. intros Hs f e. apply tm_bounds. now apply dok. Qed.

Lemma G_capset b id p e s : deep c d s -> EvG b s (fun E k a =>
  k_fn (Cont false (fun s2 a => with_var id s2 (fun _ => k_fn k (setvars (vset id (VLex p e) (vars s2)) s2) a))) s a).
Proof.
  intros Hs. cbn [k_fn].
  apply (G_var b id s (fun E k a _ => k_fn k (setvars (vset id (VLex p e) (vars s)) s) a)).
  intros. apply G_k. auto.
Qed.

Lemma full_ctxcap id t : MH t -> full (RCtxCap id t).
Proof.
  intros HM. apply mkf.
  - apply (try_tok inp prods _ t (fun _ _ ok e => BR ok (BEnd e)) HM); [reflexivity|discriminate].
  - now apply cancel_nil.
  - intros s b Hs. cbn [parse_step].
    apply (G_token inp prods b s t (fun E k a e s1 =>
        ws_then E c (Cont false (fun s2 a =>
          with_var id s2 (fun _ => k_fn k (setvars (vset id (VLex (pos s) e) (vars s2)) s2) a)))
          s1 (a ++ [VLex (pos s) e]))); auto.
    intros e s1 Hf He. assert (H1 : deep c d s1) by auto.
    apply (G_args inp prods b s1 (fun E k a => ws_then E c (Cont false (fun s2 a =>
          with_var id s2 (fun _ => k_fn k (setvars (vset id (VLex (pos s) e) (vars s2)) s2) a))) s1 a)).
    apply (G_ws_cont inp prods b false c s1 (fun E k => Cont false (fun s2 a =>
          with_var id s2 (fun _ => k_fn k (setvars (vset id (VLex (pos s) e) (vars s2)) s2) a)))); auto.
    intros s2 H2. apply G_capset. auto.
  - intros s b bs n Hs Ht. cbn [finish_step]. cbn [try_step] in Ht.
    destruct (tmatch inp (eng n) t (pos s)) eqn:Hm; try discriminate. injection Ht as -> <-. cbn [b_end].
    apply (G_tok_finish inp prods c d HW b false (tkind_of t) e s (fun E k => Cont false (fun s2 a =>
          with_var id s2 (fun _ => k_fn k (setvars (vset id (VLex (pos s) e) (vars s2)) s2) a)))); auto.
    + eapply try_end; eauto.
    + intros s1 H1. now apply G_capset.
Qed.

Lemma full_ctxrem id t tag : MH t -> full (RCtxRem id t tag).
Proof.
  intros HM. apply mkf.
  - intros vs p Hp. destruct (HM p Hp) as (x & Hx & N & He).
    exists (match x with
      | TR true e =>
          match vget id vs with Some v => BR (lex_eqb inp v p e) (BEnd e) | None => BCrash end
      | TR false e => BR false (BEnd e)
      | TNoFuel => BNoFuel
      | TCrash => BCrash
      end). split.
    + destruct x as [[]| |]; try congruence. destruct (vget id vs); discriminate.
    + exists N. intros n Hn. cbn [try_step]. rewrite He by exact Hn. reflexivity.
  - now apply cancel_nil.
  - intros s b Hs. cbn [parse_step].
    apply (G_token inp prods b s t (fun E k a e s1 =>
      ws_then E c (Cont false (fun s2 a =>
          with_var id s2 (fun v =>
            k_fn k (if lex_eqb inp v (pos s) e then s2 else emit (EError tag (pos s) e) s2) a)))
          s1 a)); auto.
    intros e s1 Hf He. assert (H1 : deep c d s1) by auto.
    apply (G_ws_cont inp prods b false c s1 (fun E k => Cont false (fun s2 a =>
          with_var id s2 (fun v =>
            k_fn k (if lex_eqb inp v (pos s) e then s2 else emit (EError tag (pos s) e) s2) a)))); auto.
    intros s2 H2. cbn [k_fn]. apply (G_var b id s2 (fun E k a v =>
      k_fn k (if lex_eqb inp v (pos s) e then s2 else emit (EError tag (pos s) e) s2) a)).
    intros v. assert (deep c d s2) by auto. apply G_k. destruct lex_eqb; auto.
  - intros s b bs n Hs Ht. cbn [finish_step]. cbn [try_step] in Ht.
    destruct (tmatch inp (eng n) t (pos s)) as [f e| |] eqn:Hm; try discriminate.
    apply G_nil. apply (G_tok_finish0 inp prods c d HW); auto.
    pose proof (try_end n t s Hs f e Hm).
    destruct f; [destruct (vget id (vars s)); [|discriminate]; injection Ht as _ <-|injection Ht as _ <-; discriminate || idtac];
      cbn [b_end]; auto.
Qed.

Lemma full_cap t : MH t -> full (RCap t).
Proof.
  intros HM. apply mkf.
  - apply (try_tok inp prods _ t (fun _ _ ok e => BR ok (BEnd e)) HM); [reflexivity|discriminate].
  - now apply cancel_nil.
  - intros s b Hs. cbn [parse_step].
    apply (G_token inp prods b s t (fun E k a e s1 => ws_then E c k s1 (a ++ [VLex (pos s) e]))); auto.
    intros e s1 Hf He. apply (G_args inp prods b s1 (fun E k a => ws_then E c k s1 a)). apply G_ws; auto.
  - intros s b bs n Hs Ht. cbn [finish_step]. cbn [try_step] in Ht.
    destruct (tmatch inp (eng n) t (pos s)) eqn:Hm; try discriminate. injection Ht as -> <-. cbn [b_end].
    apply (G_tok_finish0 inp prods c d HW); auto. eapply try_end; eauto.
Qed.

Lemma full_sym t f tag : MH t -> full (RSym t f tag).
Proof.
  intros HM. apply mkf.
  - intros vs p Hp. destruct (HM p Hp) as (x & Hx & N & He).
    exists (match x with
      | TR true e => BR (match f (slice inp p e) with Some _ => true | None => false end) (BEnd e)
      | TR false e => BR false (BEnd e)
      | TNoFuel => BNoFuel
      | TCrash => BCrash
      end). split.
    + destruct x as [[]| |]; congruence.
    + exists N. intros n Hn. cbn [try_step]. rewrite He by exact Hn. reflexivity.
  - now apply cancel_nil.
  - intros s b Hs. cbn [parse_step].
    apply (G_token inp prods b s t (fun E k a e s1 =>
      ws_then E c (Cont false (fun s2 a =>
          match f (slice inp (pos s) e) with
          | None => Res OFalse (emit (EError tag (pos s) e) s2) 0
          | Some z => k_fn k s2 (a ++ [VInt z])
          end)) s1 a)); auto.
    intros e s1 Hf He. assert (H1 : deep c d s1) by auto.
    apply (G_ws_cont inp prods b false c s1 (fun E k => Cont false (fun s2 a =>
          match f (slice inp (pos s) e) with
          | None => Res OFalse (emit (EError tag (pos s) e) s2) 0
          | Some z => k_fn k s2 (a ++ [VInt z])
          end))); auto.
    intros s2 H2. cbn [k_fn]. assert (deep c d s2) by auto.
    destruct (f (slice inp (pos s) e)); [apply G_kv|apply G_false]; auto.
  - intros s b bs n Hs Ht. cbn [finish_step]. cbn [try_step] in Ht.
    destruct (tmatch inp (eng n) t (pos s)) as [g e| |] eqn:Hm; try discriminate.
    pose proof (try_end n t s Hs g e Hm).
    destruct (f (slice inp (pos s) (b_end inp bs))) as [z|]; [|apply G_crash].
    apply (G_tok_finish0 inp prods c d HW); auto.
    destruct g; injection Ht as _ <-; cbn [b_end]; auto.
Qed.

(** ** Values *)
Lemma full_ret : full RRet.
Proof.
  apply mkp; auto. intros s b Hs. cbn [parse_step].
  eapply G_ext with (F' := fun E k a => Res (sto (STrue []) a) s 0).
  - intros E k a _. cbn. now rewrite app_nil_r.
  - apply G_stop. auto.
Qed.
Lemma full_pos : full RPos.
Proof. apply mkp; auto. intros s b Hs. cbn [parse_step]. apply G_kv. auto. Qed.
Lemma full_posr r : full r -> full (RPosR r).
Proof.
  intros Hr. apply mkf.
  - apply (try_same inp prods (RPosR r) r); [reflexivity|apply Hr].
  - apply (cancel_same inp prods (RPosR r) r); [reflexivity|apply Hr].
  - intros s b Hs. cbn [parse_step]. set (s0 := emit (EToken KPosition (pos s) (pos s)) s).
    apply (G_l inp prods b s s0); [auto|].
    apply (G_args inp prods b s0 (fun E k a => e_parse E c r k s0 a)). now apply fparse.
  - intros s b bs n Hs Ht. cbn [finish_step]. set (s0 := emit (EToken KPosition (pos s) (pos s)) s).
    apply (G_l inp prods b s s0); [auto|].
    apply (G_args inp prods b s0 (fun E k a => e_finish E c r bs k s0 a)). apply ffinish; auto.
    apply (tries_of inp prods n _ s0). exact Ht.
Qed.

Lemma G_capr b s P : deep c d s -> EvG true s P ->
  EvG b s (fun E k a => P E (capr_cont E c (pos s) (length a) k) a).
Proof.
  intros Hs HP.
  apply (G_through inp prods b true s s P (fun E k a => capr_cont E c (pos s) (length a) k) (fun E k a x => x)); auto.
  - intros o s1 Hf. now apply G_stop.
  - intros l s1 vs Hf.
    eapply G_ext with (F' := fun E k a => posts l (ws_then E c k s1 (a ++ VLex (pos s) (pos s1) :: vs))).
    { intros E k a _. cbn [capr_cont k_fn].
      rewrite firstn_app, Nat.sub_diag, firstn_all, skipn_app, Nat.sub_diag, skipn_all.
      cbn [firstn skipn app]. now rewrite app_nil_r. }
    eapply G_posts; [exact Hf|].
    apply (G_args inp prods b s1 (fun E k a => ws_then E c k s1 a)). apply G_ws; auto.
  - apply G_crash.
Qed.
Lemma full_capr r : full r -> full (RCapR r).
Proof.
  intros Hr. apply mkf.
  - apply (try_same inp prods (RCapR r) r); [reflexivity|apply Hr].
  - apply (cancel_same inp prods (RCapR r) r); [reflexivity|apply Hr].
  - intros s b Hs. cbn [parse_step]. apply (G_capr b s (fun E k a => e_parse E c r k s a)); auto. now apply fparse.
  - intros s b bs n Hs Ht. cbn [finish_step]. apply (G_capr b s (fun E k a => e_finish E c r bs k s a)); auto.
    apply ffinish; auto. eapply tries_of; exact Ht.
Qed.

Lemma full_eof : full REof.
Proof.
  apply mkf.
  - intros vs p _. apply (try_const inp prods (BR (eof inp p) BNone)); [discriminate|reflexivity].
  - now apply cancel_nil.
  - intros s b Hs. cbn [parse_step]. apply G_k. destruct eof; auto.
  - intros s b bs n Hs _. cbn [finish_step]. apply G_k. auto.
Qed.

Lemma full_pas r : full r -> full (RPas r).
Proof.
  intros Hr. apply mkf.
  - apply (try_same inp prods (RPas r) r); [reflexivity|apply Hr].
  - apply (cancel_same inp prods (RPas r) r); [reflexivity|apply Hr].
  - intros s b Hs. cbn [parse_step]. unfold pas_after.
    apply (G_delim inp prods b s _ (fun E k a s vs => k_fn k s (a ++ [VAs vs]))); [now apply frun|].
    intros s1 vs Hf _. assert (deep c d s1) by auto. apply G_kv. auto.
  - intros s b bs n Hs Ht. cbn [finish_step]. unfold pas_after.
    apply (G_delim inp prods b s _ (fun E k a s vs => k_fn k s (a ++ [VAs vs]))).
    + apply frunf; auto. eapply tries_of; exact Ht.
    + intros s1 vs Hf _. assert (deep c d s1) by auto. apply G_kv. auto.
Qed.

End Rules.
