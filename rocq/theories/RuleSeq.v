(** Sequences: how the rules of a sequence follow one another, and which outcomes a rule can have
    by itself (without its continuation). *)
From Verif Require Import Prelude RuleModel RuleSpec RuleDen RuleGood RuleMono RuleSem RuleLaws RuleLists.
Close Scope N_scope.

(** [tame okB okR okI r]: break_ ([okB]), return_ ([okR]) and ends of combination items ([okI])
    that belong to the rule itself, i.e. are not inside a part that is parsed on its own. *)
Fixpoint tame (okB okR : bool) (okI : nat -> bool) (r : rule) : bool :=
  match r with
  | RBreak => okB
  | RRet => okR
  | RCombIt i => okI i
  | RSeq rs | RChc rs | RReco _ rs => forallb (tame okB okR okI) rs
  | RBr c rs => tame okB okR okI c && forallb (tame okB okR okI) rs
  | RIf b | ROpt b | RMust b _ _ | RNSep b _ | RNoWs b | RFlag b _ _ | RCtxPush _ _ b | RPosR b
  | RCapR b => tame okB okR okI b
  | ROptT t r => tame okB okR okI t && tame okB okR okI r
  | RLstT t _ _ _ => tame okB okR okI t
  | RRecW r => match r with Some r => tame okB okR okI r | None => true end
  | RTryT t r rec => match t with Some t => tame okB okR okI t | None => true end && tame okB okR okI r &&
                     match rec with Some r => tame okB okR okI r | None => true end
  | RTry r rec => tame okB okR okI r && match rec with Some r => tame okB okR okI r | None => true end
  | _ => true
  end.

Section Prov.
Variable inp : list N.
Variable prods : nat -> production.
Variable A : out -> Prop.
Variables okB okR : bool.
Variable okI : nat -> bool.
Hypothesis A_false : A OFalse.
Hypothesis A_break : okB = true -> A OBreak.
Hypothesis A_ret : okR = true -> forall vs, A (OTrue vs).
Hypothesis A_item : forall i, okI i = true -> forall vs, A (OItem i vs).
Notation tame := (tame okB okR okI).

Definition prov (r : res) : Prop := match r with Res o _ _ => A o | _ => True end.
Definition pk (k : cont) : Prop := forall s a, prov (k_fn k s a).

Record pe (E : engine) : Prop := {
  pe_parse : forall c r k s a, tame r = true -> pk k -> prov (e_parse E c r k s a);
  pe_finish : forall c r b k s a, tame r = true -> pk k -> prov (e_finish E c r b k s a);
  pe_reco : forall c lim al b k s a, tame al = true -> pk k -> prov (e_reco E c lim al b k s a)
}.

Lemma pe_0 : pe eng0.
Proof. split; intros; exact I. Qed.

Section Step.
Variable E : engine.
Hypothesis HE : pe E.

Lemma prov_delim r ok : (forall s v, prov (ok s v)) -> prov (delim r ok).
Proof. intros H. destruct r as [[]| |]; cbn; auto. Qed.
Lemma prov_orelse r ok no : (forall s v, prov (ok s v)) -> (forall s, prov (no s)) -> prov (orelse r ok no).
Proof. intros H H1. destruct r as [[]| |]; cbn; auto. Qed.
Lemma prov_cancel r b s ok : (forall s, prov (ok s)) -> prov (cancel_then E r b s ok).
Proof. intros H. unfold cancel_then. destruct (e_cancel E r b); cbn; auto. Qed.
Lemma prov_branch_or c r k s a other : tame r = true -> pk k -> (forall s, prov (other s)) ->
  prov (branch_or E c r k s a other).
Proof.
  intros Hr Hk Ho. unfold branch_or. destruct (e_try E r (vars s) (pos s)) as [[|] b| |]; cbn; auto.
  - now apply (pe_finish E HE).
  - now apply prov_cancel.
Qed.
Lemma prov_skip_ws w s ok : (forall s, prov (ok s)) -> prov (skip_ws E w s ok).
Proof.
  intros H. unfold skip_ws. destruct (token_rule (strip_ws w)).
  - destruct (e_wsloop E (strip_ws w) (pos s)); cbn; auto.
  - destruct (e_parse E sub_cx _ final _ []) as [[]| |]; cbn; auto.
Qed.
Lemma prov_ws_then c k s a : pk k -> prov (ws_then E c k s a).
Proof.
  intros H. unfold ws_then. destruct (cx_ws c); auto. destruct (k_nows k || negb (wsf s)); auto.
  apply prov_skip_ws. intros. apply H.
Qed.
Lemma prov_tok_finish c kd e k s a : pk k -> prov (tok_finish E c kd e k s a).
Proof. intros. now apply prov_ws_then. Qed.
Lemma prov_token_parse r s ok : (forall e s, prov (ok e s)) -> prov (token_parse inp E r s ok).
Proof. intros H. unfold token_parse. destruct (tmatch inp E r (pos s)) as [[|]| |]; cbn; auto. Qed.
Lemma pk_seq c rs k : forallb tame rs = true -> pk k -> pk (seq_cont E c rs k).
Proof.
  induction rs as [|r rs IH]; intros Hr Hk; cbn [seq_cont]; auto. cbn in Hr. apply andb_true_iff in Hr.
  intros s a. cbn [k_fn]. apply (pe_parse E HE); [tauto|]. apply IH; tauto.
Qed.
Lemma prov_chc c u k a rs : forallb tame rs = true -> pk k -> forall s, prov (p_chc E c u rs k s a).
Proof.
  intros Hr Hk. induction rs as [|r rs IH]; intros s; cbn [p_chc].
  - destruct u; cbn; auto.
  - cbn in Hr. apply andb_true_iff in Hr. apply prov_branch_or; [tauto|exact Hk|intros; apply IH; tauto].
Qed.
Lemma prov_f_chc c k a rs : forallb tame rs = true -> pk k -> forall i bs s, prov (f_chc E c rs i bs k s a).
Proof.
  intros Hr Hk. induction rs as [|r rs IH]; intros i bs s; cbn [f_chc]; [exact I|].
  cbn in Hr. apply andb_true_iff in Hr. destruct i.
  - apply (pe_finish E HE); tauto.
  - apply prov_cancel. intros. apply IH. tauto.
Qed.
Lemma prov_err t r s : prov (p_err E t r s).
Proof. unfold p_err. destruct r; cbn; auto. destruct (run_token E r (pos s)); cbn; auto. Qed.
Lemma prov_mark r : prov r -> prov (mark r).
Proof. destruct r; cbn; auto. Qed.
Lemma pk_try_cont c term k : match term with Some t => tame t | None => true end = true -> pk k ->
  pk (try_cont E c term k).
Proof.
  intros Ht Hk s a. cbn [try_cont k_fn]. apply prov_mark. destruct term; [now apply (pe_parse E HE)|apply Hk].
Qed.
Lemma prov_try_after c rec k a r : match rec with Some t => tame t | None => true end = true -> pk k ->
  prov r -> prov (try_after E c rec k a r).
Proof.
  intros Ht Hk Hr. destruct r as [o s [|m]| |]; try exact Hr; try exact I.
  2: now destruct o.
  destruct o; try exact I. cbn [try_after]. unfold try_recover.
  destruct rec as [[]|]; apply (pe_parse E HE); first [exact Ht|exact Hk].
Qed.
Lemma prov_prod_finish c p k a s vs : pk k -> prov (prod_finish prods E c p k a s vs).
Proof. intros H. unfold prod_finish. destruct (p_token (prods p)); [now apply prov_ws_then|apply H]. Qed.
Lemma prov_prod_after c p k a r : pk k -> prov (prod_after prods E c p k a r).
Proof.
  intros H. destruct r as [[]| |]; cbn; auto. now apply prov_prod_finish.
Qed.
Lemma prov_inc_depth c t s ok : (forall s, prov (ok s)) -> prov (inc_depth c t s ok).
Proof. intros H. unfold inc_depth. destruct (cx_max c =? 0); cbn; auto. destruct (cx_max c <=? depth s); cbn; auto. Qed.
Lemma pk_depth k : pk k -> pk (depth_cont k).
Proof. intros H s a. apply H. Qed.
Lemma pk_nows c k : pk k -> pk (nows_cont E c k).
Proof. intros H s a. now apply prov_ws_then. Qed.
Lemma pk_push id sign b k : pk k -> pk (push_cont id sign b k).
Proof.
  intros H s a. cbn [push_cont k_fn]. unfold with_var. destruct (vget id (vars s)) as [[]|]; cbn; auto.
Qed.
Lemma pk_capr c b n k : pk k -> pk (capr_cont E c b n k).
Proof. intros H s a. now apply prov_ws_then. Qed.
Lemma prov_rep_run c m item sep k a s vs : pk k -> prov (rep_run E c m item sep k a s vs).
Proof.
  intros H. unfold rep_run. destruct (count_of vs); cbn; auto. apply prov_delim. intros. destruct m; apply H.
Qed.
Lemma prov_p_lstt c term item sep lim k s a : tame term = true -> pk k ->
  prov (p_lstt E c term item sep lim k s a).
Proof.
  intros Ht Hk. unfold p_lstt. apply prov_orelse; intros; apply prov_delim; intros;
    destruct (e_try E term (vars s1) (pos s1)) as [[|] b| |]; cbn; auto; now apply (pe_finish E HE).
Qed.
Lemma prov_recw c r k s a : match r with Some r => tame r | None => true end = true -> pk k ->
  prov (p_recw E c r k s a).
Proof.
  intros Hr Hk. unfold p_recw.
  assert (Hw : pk (Cont false (fun s a => ws_then E c
            (Cont false (fun s a => mark (k_fn k (emit (ERFinish (pos s)) s) a))) s a))).
  { intros s1 a1. cbn [k_fn]. apply prov_ws_then. intros s2 a2. cbn [k_fn]. apply prov_mark, Hk. }
  assert (Hx : prov (match r with
            | Some r => e_parse E c r (Cont false (fun s a => ws_then E c
                (Cont false (fun s a => mark (k_fn k (emit (ERFinish (pos s)) s) a))) s a)) (emit (ERStart (pos s)) s) a
            | None => k_fn (Cont false (fun s a => ws_then E c
                (Cont false (fun s a => mark (k_fn k (emit (ERFinish (pos s)) s) a))) s a)) (emit (ERStart (pos s)) s) a end)).
  { destruct r; [now apply (pe_parse E HE)|apply Hw]. }
  destruct r; destruct (_ : res) as [? ? []| |] in *; cbn in *; auto.
Qed.

Lemma alts_tame bs : tame (alts_of bs) = forallb tame bs.
Proof.
  destruct bs as [|b [|b1 bs]]; cbn [alts_of]; auto. cbn. now rewrite andb_true_r.
Qed.

Ltac splitb := repeat match goal with H : _ && _ = true |- _ => apply andb_true_iff in H; destruct H end.

Ltac prov1 := first
  [ exact I | exact A_false | now apply A_break | assumption
  | match goal with Hk : pk ?k |- prov (k_fn ?k _ _) => apply Hk end
  | match goal with |- pk _ =>
      first [ apply pk_seq | apply pk_depth | apply pk_nows | apply pk_push | apply pk_capr | apply pk_try_cont
            | intros ? ?; cbn [k_fn] ] end
  | apply prov_token_parse; intros | apply prov_ws_then | apply prov_tok_finish
  | apply prov_branch_or; intros | apply prov_chc | apply prov_f_chc | apply prov_err | apply prov_p_lstt
  | apply prov_recw | apply prov_delim; intros | apply prov_cancel; intros | apply prov_try_after
  | apply prov_prod_after | apply prov_inc_depth; intros | apply prov_skip_ws; intros | apply prov_rep_run
  | apply (pe_parse E HE) | apply (pe_finish E HE) | apply (pe_reco E HE); rewrite ?alts_tame
  | now apply A_item | now apply A_ret
  | match goal with
    | |- prov (match ?x with _ => _ end) => destruct x
    | |- prov (k_fn _ _ (match ?x with _ => _ end)) => destruct x
    | |- prov (let '_ := ?x in _) => destruct x
    | |- prov (sink_finish _ _ _ _) => unfold sink_finish
    | |- prov (with_var _ _ _) => unfold with_var
    | |- prov (p_find _ _ _ _ _) => unfold p_find
    | |- prov (p_prod _ _ _ _ _ _ _) => unfold p_prod
    | |- prov (p_seq _ _ _ _ _ _) => unfold p_seq; apply pk_seq
    | |- prov (p_nsep _ _ _ _ _ _ _) => unfold p_nsep
    | |- prov (p_try _ _ _ _ _ _ _ _) => unfold p_try
    | |- prov (pas_after _ _ _) => unfold pas_after
    | |- prov (Res _ _ _) => cbn [prov]
    end
  | cbn; reflexivity ].

Lemma prov_parse c r k s a : tame r = true -> pk k -> prov (parse_step inp prods E c r k s a).
Proof.
  intros Hr Hk.
  destruct r; cbn [parse_step]; cbn [RuleSeq.tame] in Hr; splitb; repeat prov1.
  unfold p_create. specialize (Hk (setvars ((id, v) :: vars s) s) a).
  destruct (k_fn k (setvars ((id, v) :: vars s) s) a); cbn in *; auto.
Qed.

Lemma prov_finish c r b k s a : tame r = true -> pk k -> prov (finish_step inp prods E c r b k s a).
Proof.
  intros Hr Hk.
  destruct r; cbn [finish_step]; cbn [RuleSeq.tame] in Hr; splitb; repeat prov1.
Qed.

Lemma prov_reco c lim al b k s a : tame al = true -> pk k -> prov (reco_step inp E c lim al b k s a).
Proof.
  intros Hr Hk. unfold reco_step. destruct (e_try E al (vars s) (pos s)) as [[|] bs| |]; cbn; auto.
  - now apply (pe_finish E HE).
  - apply prov_cancel. intros. destruct (fst (tk_try lim inp (pos s0)) || eof inp (pos s0)); cbn; auto.
    now apply (pe_reco E HE).
Qed.

End Step.

Lemma pe_eng n : pe (eng inp prods n).
Proof.
  induction n as [|n IH]; [exact pe_0|]. split; intros; cbn [eng step e_parse e_finish e_reco].
  - now apply prov_parse.
  - now apply prov_finish.
  - now apply prov_reco.
Qed.

End Prov.
