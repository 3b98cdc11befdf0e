(** C79: parsing ends. *)
From Verif Require Import Prelude RuleModel RuleSem RuleInv HaltSpec HaltBase HaltProofs HaltEats RuleSample.
From Verif Require GtModel GtSpec GtProps.
From Coq Require Import String.
Close Scope string_scope.
Close Scope N_scope.

(** For every input, parsing every production of such a grammar ends: with enough fuel the
    outcome is not that the fuel ran out, and it is the same with more.  The grammar may recurse
    without consuming: the depth limit ends that.  Asked is (see [HaltSpec.fine]): every round
    of a loop moves on; productions refer to themselves only by recurse and recurse_branch; the
    condition of a production is not again itself; tokens and whitespace do not recurse. *)
Theorem C79_ends : forall inp prods rank hrank simple,
  fine inp prods rank hrank simple -> forall p, ends inp prods p.
Proof. exact parsing_ends. Qed.
Print Assumptions C79_ends.

(** Whether loops move on can mostly be read off their rules: the rule of the loop contains a
    token, in a place that is always parsed, that does not match the empty string. *)
Theorem C79_consumes : forall inp prods cp cb, sure inp prods cp cb -> forall r,
  (eats inp cp r -> advances inp prods r /\ taken_advances inp prods r /\ match_advances inp prods r) /\
  (grabs inp cp cb r -> taken_moves inp prods r).
Proof.
  intros inp prods cp cb HS r. split.
  - intros H. split; [eapply eats_advances|split; [eapply eats_taken|eapply eats_match]]; eauto.
  - intros H. eapply grabs_taken; eauto.
Qed.
Print Assumptions C79_consumes.

(** So this is a check of the grammar alone. *)
Theorem C79_checked : forall inp prods cp cb rank hrank simple,
  checked inp prods cp cb rank hrank simple -> forall p, ends inp prods p.
Proof.
  intros inp prods cp cb rank hrank simple [HS H]. apply (C79_ends inp prods rank hrank simple).
  assert (HI : forall p r, checked_rule inp prods cp cb rank simple p r -> fine_rule inp prods rank simple p r).
  { intros p r Hr. apply (inside_2 _ _ _) with (2 := Hr) (3 := Hr). intros x (H1 & H2 & H3) _.
    split; [exact (loops_move inp prods cp cb HS x H1)|auto]. }
  intros p. destruct (H p) as (H1 & H2 & H3 & H4). split; [now apply HI|split; [|auto]].
  intros w Hw. destruct (H2 w Hw) as (H5 & H6 & H7). split; [exact (eats_ws inp prods cp cb HS w H5)|auto].
Qed.
Print Assumptions C79_checked.

(** Without that, parsing may not end: a loop whose rounds succeed without moving on, and a
    production that starts with itself. *)
Theorem C79_needed : forall inp prods p, p_ws (prods p) = None ->
  p_rule (prods p) = RLoop RElse \/ p_rule (prods p) = RProd p -> forever inp prods p.
Proof.
  intros inp prods p Hw Hr n. unfold action, do_action, ws_then. rewrite Hw. cbn [cx_ws k_fn].
  assert (HX : forall c k s a, e_parse (eng inp prods n) c (p_rule (prods p)) k s a = NoFuel).
  { destruct Hr as [Hr|Hr]; rewrite Hr; clear - Hw Hr; induction n as [|n IH]; intros c k s a; try reflexivity;
      cbn [eng step e_parse parse_step].
    - destruct n as [|n]; [reflexivity|]. exact (IH c k s a).
    - unfold p_prod. rewrite Hw, Hr, IH. reflexivity. }
  now rewrite HX.
Qed.
Print Assumptions C79_needed.

(** Nested lists of numbers with whitespace; the list goes on after errors. *)
Definition never : token := class_tok (KUser 9) (TUser 9) (fun _ => false).
Definition nested (p : nat) : production :=
  match p with
  | 0 => Production (RSeq [RProd 1; REof]) false (Some (lit " ")) false 100
  | 1 => plain (RChc [RProd 2; RBr (lit "[") [ROptT (lit "]")
           (RLstT (lit "]") (RRec 1 TDepth) (Some (lit ",", SErr TTrailing)) never)]])
  | _ => plain (RBr digit [RWhile digit])
  end.

Lemma lit_eats s inp : s <> EmptyString -> tok_eats inp (lit_tok (KUser 0) (TUser 0) (str s)).
Proof.
  intros Hs p e Hp. cbn [lit_tok tk_try]. unfold mk_try. intros [= Hc <-].
  assert (Hl : 0 < List.length (str s)) by (destruct s; [easy|cbn; lia]).
  apply Nat.eqb_eq in Hc. assert (List.length inp - p <> 0); [|lia].
  intros H0. rewrite skipn_all2 in Hc by lia. destruct (str s); cbn in *; lia.
Qed.
Lemma digit_eats f k t inp : tok_eats inp (class_tok k t f).
Proof.
  intros p e Hp. cbn [class_tok tk_try]. unfold mk_try. destruct (nth_error inp p) as [u|] eqn:Hn.
  - assert (p < List.length inp) by (apply nth_error_Some; congruence). destruct (f u); [|discriminate]. intros H1. assert (He : e = Nat.max p (Nat.min (S p) (List.length inp))) by congruence. lia.
  - discriminate.
Qed.

Example C79_example : forall inp,
  checked inp nested (fun p => match p with 0 => false | _ => true end) (fun _ => false)
    (fun p => 2 - p) (fun p => 2 - p) (fun _ => false) /\
  (forall p, ends inp nested p).
Proof.
  intros inp.
  assert (H : checked inp nested (fun p => match p with 0 => false | _ => true end) (fun _ => false)
    (fun p => 2 - p) (fun p => 2 - p) (fun _ => false)); [|split; [exact H|eapply C79_checked; exact H]].
  assert (Hl : forall s, s <> EmptyString -> eats inp (fun p => match p with 0 => false | _ => true end) (lit s))
    by (intros; now apply lit_eats).
  assert (Hd : eats inp (fun p => match p with 0 => false | _ => true end) digit) by apply digit_eats.
  split.
  - intros [|[|q]]; (split; [|discriminate]); intros Hq; try discriminate Hq.
    + split; [reflexivity|split; [left; now apply Hl|exact I]].
    + left. exact Hd.
  - intros [|[|q]]; (split; [|split; [|split]]).
    + cbn. repeat split; auto.
    + intros w [= <-]. split; [now apply Hl|]. cbn. auto.
    + intros q [].
    + discriminate.
    + cbn -[eats lit]. repeat split; auto; try (now apply Hl); lia.
    + discriminate.
    + intros q' [<-|[]]. cbn. lia.
    + discriminate.
    + cbn -[eats digit]. repeat split; auto.
    + discriminate.
    + intros q' [].
    + discriminate.
Qed.

(** The token rules of the library of which C78 says that they consume something. *)
Theorem C79_tokens : forall inp fold k E t, GtSpec.tr_ok E t -> GtSpec.eats t ->
  tok_eats inp (GtModel.engine_token fold k E t).
Proof.
  intros inp fold k E t Ho He p e Hp Ht.
  destruct (GtProps.C78_engine fold k E t inp p Ho Hp) as [(ok & n & Hn & Hx) _].
  rewrite Hx in Ht. injection Ht as -> <-. apply (GtProps.C78_consumes fold E t _ n Ho He) in Hn. lia.
Qed.
Print Assumptions C79_tokens.

(** The grammar of C78: numbers and nulls with whitespace and comments. *)
Example C79_library : forall inp p, ends inp GtProps.a_list p.
Proof.
  intros inp. apply (C79_checked inp GtProps.a_list (fun _ => true) (fun _ => false)
    (fun p => 1 - p) (fun p => 1 - p) (fun _ => false)).
  destruct GtProps.C78_tokens as [HO HT].
  inversion HO as [|? ? O1 HO1]; subst. inversion HO1 as [|? ? O2 HO2]; subst.
  inversion HO2 as [|? ? O3 HO3]; subst. inversion HO3 as [|? ? O4 HO4]; subst. clear HO HO1 HO2 HO3 HO4.
  inversion HT as [|? ? T1 HT1]; subst. inversion HT1 as [|? ? T2 HT2]; subst.
  inversion HT2 as [|? ? T3 HT3]; subst. inversion HT3 as [|? ? T4 HT4]; subst. clear HT HT1 HT2 HT3 HT4.
  assert (O5 : GtSpec.tr_ok (LitModel.Enc CodecModel.Utf8) (GtModel.TrLit LitModel.NoFold (str "#"))).
  { split; [|discriminate]. intros H. vm_compute in H. intuition discriminate. }
  assert (T5 : GtSpec.eats (GtModel.TrLit LitModel.NoFold (str "#"))) by (split; discriminate).
  assert (HE : forall t, GtSpec.tr_ok (LitModel.Enc CodecModel.Utf8) t -> GtSpec.eats t ->
    eats inp (fun _ => true) (GtProps.the_token t)) by (intros; now apply C79_tokens).
  pose proof (HE _ O1 T1) as E1. pose proof (HE _ O2 T2) as E2. pose proof (HE _ O3 T3) as E3.
  pose proof (HE _ O4 T4) as E4. pose proof (HE _ O5 T5) as E5.
  assert (HI : forall p t, checked_rule inp GtProps.a_list (fun _ => true) (fun _ => false) (fun p => 1 - p) (fun _ => false)
    p (GtProps.the_token t)) by (intros; repeat split).
  split.
  - intros q. split; [|discriminate]. intros _. destruct q; cbn -[GtProps.the_token].
    + left. reflexivity.
    + repeat split; assumption.
  - intros [|q]; (split; [|split; [|split]]).
    + repeat split; cbn; auto.
    + intros w [= <-]. split; [|split].
      * split; [exact E4|split; [left; exact E5|exact I]].
      * repeat split; cbn; auto.
      * cbn. repeat split; auto.
    + intros q [].
    + discriminate.
    + repeat split; cbn; auto.
    + discriminate.
    + intros q' [].
    + discriminate.
Qed.

(** "[1, 22, x, []]": one error, the rest is parsed. *)
Example C79_run : match action (str "[1, 22, x, []]") nested 60 0 with
  | Res (OTrue _) s _ => pos s = 14 /\ List.length (filter is_err (trace s)) = 1
  | _ => False
  end.
Proof. vm_compute. auto. Qed.
