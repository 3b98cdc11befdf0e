(** Conditions: when branch rules match, and what taking them does; context variables. *)
From Verif Require Import Prelude RuleModel RuleSpec RuleDen RuleGood RuleMono RuleSem RuleLaws RuleLists RuleSeq
  RuleVars RuleInv RuleChain RuleCtl.
Close Scope N_scope.

Section Facts.
Variable inp : list N.
Variable prods : nat -> production.
Notation eng := (eng inp prods).
Notation ev := (ev inp prods).
Notation Runs := (Runs inp prods).
Notation Tries := (Tries inp prods).
Notation Cancels := (Cancels inp prods).
Notation Declines := (Declines inp prods).
Notation Finishes := (Finishes inp prods).
Notation Takes := (Takes inp prods).
Notation Matches := (Matches inp prods).
Notation Skips := (Skips inp prods).

Lemma tries_shift r s ok b : Tries r s ok b <-> ev (fun E => try_step inp prods E r (vars s) (pos s)) (BR ok b).
Proof. unfold RuleSem.Tries. rewrite ev_shift. reflexivity. Qed.

Lemma tm_ev (J : bool -> nat -> bres) r p ok b :
  ev (fun E => match tmatch inp E r p with TR ok e => J ok e | TNoFuel => BNoFuel | TCrash => BCrash end) (BR ok b) <->
  exists ok0 e, Matches r p ok0 e /\ J ok0 e = BR ok b.
Proof.
  rewrite (ev_bind inp prods TNoFuel BNoFuel (fun E => tmatch inp E r p)
    (fun _ y => match y with TR ok e => J ok e | TNoFuel => BNoFuel | TCrash => BCrash end));
    auto using mono_tmatch; [|discriminate].
  split.
  - intros ([o e| |] & H1 & H2); apply ev_const in H2; try discriminate. eauto.
  - intros (o & e & H1 & H2). exists (TR o e). split; auto. now apply ev_const.
Qed.

Lemma peek_tries r t s ok b : Tries (RPeek r t) s ok b <-> exists e, Matches r (pos s) ok e /\ b = BRange (pos s) e.
Proof.
  rewrite tries_shift. cbn [try_step]. rewrite (tm_ev (fun ok e => BR ok (BRange (pos s) e))). split.
  - intros (o & e & H & [= <- <-]). eauto.
  - intros (e & H & ->). eauto.
Qed.
Lemma peek_not_tries r t s ok b :
  Tries (RPeekN r t) s ok b <-> exists e, Matches r (pos s) (negb ok) e /\ b = BRange (pos s) e.
Proof.
  rewrite tries_shift. cbn [try_step]. rewrite (tm_ev (fun ok e => BR (negb ok) (BRange (pos s) e))). split.
  - intros (o & e & H & [= <- <-]). rewrite negb_involutive. eauto.
  - intros (e & H & ->). exists (negb ok), e. rewrite negb_involutive. auto.
Qed.

(** A peeking rule, taken as a branch, leaves everything but the event list as it is. *)
Definition peeks (r : rule) : Prop := match r with RPeek _ _ | RPeekN _ _ | RLook _ _ => True | _ => False end.
Lemma peek_takes c r s o s' : peeks r -> Takes c r s o s' ->
  o = OTrue [] /\ exists b e, s' = emit (EBack b e) s.
Proof.
  intros Hr (b & _ & H). apply Finishes_shift in H. destruct H as [m H].
  destruct r; try contradiction; cbn [finish_step] in H; apply ev_const in H; injection H as <- <- _; eauto.
Qed.

(** ** Choice as a branch *)
Lemma t_chc_ev rs : forall i s ok b,
  ev (fun E => t_chc E rs i (vars s) (pos s)) (BR ok b) <->
  (exists pre r post bs b1, rs = pre ++ r :: post /\ Forall2 (fun r b => Tries r s false b) pre bs /\
      Tries r s true b1 /\ ok = true /\ b = BChc (i + length pre) (bs ++ [b1])) \/
  (exists bs, Forall2 (fun r b => Tries r s false b) rs bs /\ ok = false /\ b = BChc (i + length rs) bs).
Proof.
  induction rs as [|r rs IH]; intros i s ok b; cbn [t_chc].
  - split.
    + intros H. apply ev_const in H. injection H as <- <-. right. exists []. rewrite Nat.add_0_r. auto.
    + intros [(pre & r & post & bs & b1 & H & _)|(bs & H & -> & ->)]; [destruct pre; discriminate|].
      inversion H; subst. rewrite Nat.add_0_r. now apply ev_const.
  - rewrite (ev_bind inp prods BNoFuel BNoFuel (fun E => e_try E r (vars s) (pos s))
      (fun E y => match y with
        | BR true b => BR true (BChc i [b])
        | BR false b => match t_chc E rs (S i) (vars s) (pos s) with
                        | BR ok (BChc j bs) => BR ok (BChc j (b :: bs)) | x => x end
        | BNoFuel => BNoFuel | BCrash => BCrash end)); auto using mono_try; [|discriminate].
    assert (Hj : forall b0, ev (fun E => match t_chc E rs (S i) (vars s) (pos s) with
                        | BR ok (BChc j bs) => BR ok (BChc j (b0 :: bs)) | x => x end) (BR ok b) <->
              exists j bs, ev (fun E => t_chc E rs (S i) (vars s) (pos s)) (BR ok (BChc j bs)) /\ b = BChc j (b0 :: bs)).
    { intros b0. split.
      - intros [N H].
        destruct (t_chc (eng N) rs (S i) (vars s) (pos s)) as [o1 b1| |] eqn:He; specialize (H N (le_n _)) as HN;
          rewrite He in HN; try discriminate.
        assert (Hm : ev (fun E => t_chc E rs (S i) (vars s) (pos s)) (BR o1 b1)).
        { apply (ev_of inp prods BNoFuel _ N); auto; [|discriminate].
          clear. generalize (S i). induction rs as [|r0 rs IH]; intros j n m Hn.
          - auto.
          - cbn [t_chc]. destruct (mono_try inp prods r0 (vars s) (pos s) n m Hn) as [->| ->]; auto.
            destruct (e_try (eng m) r0 (vars s) (pos s)) as [[|] b0| |]; auto.
            destruct (IH (S j) n m Hn) as [->| ->]; auto. }
        pose proof (proj1 (IH _ _ _ _) Hm) as Hb1.
        assert (exists j bs, b1 = BChc j bs) as (j & bs & ->).
        { destruct Hb1 as [(pre & r0 & post & bs & b2 & _ & _ & _ & _ & H1)|(bs & _ & _ & H1)]; eauto. }
        injection HN as <- <-.
        eauto.
      - intros (j & bs & [N H] & ->). exists N. intros n Hn. now rewrite H. }
    split.
    + intros ([[|] b0| |] & H1 & H2); try (apply ev_const in H2; discriminate).
      * apply ev_const in H2. injection H2 as <- <-. left. exists [], r, rs, [], b0. rewrite Nat.add_0_r. auto.
      * apply Hj in H2. destruct H2 as (j & bs & H2 & ->). apply IH in H2.
        destruct H2 as [(pre & r' & post & bs' & b1 & -> & H3 & H4 & -> & [= -> ->])|(bs' & H3 & -> & [= -> ->])].
        -- left. exists (r :: pre), r', post, (b0 :: bs'), b1. repeat split; auto. cbn [length app]. f_equal. lia.
        -- right. exists (b0 :: bs'). repeat split; auto. cbn [length]. f_equal. lia.
    + intros [(pre & r' & post & bs' & b1 & Hr & H3 & H4 & -> & ->)|(bs' & H3 & -> & ->)].
      * destruct pre as [|r0 pre]; cbn [app] in Hr; injection Hr as <- ->.
        -- inversion H3; subst. rewrite Nat.add_0_r. exists (BR true b1). split; auto. now apply ev_const.
        -- inversion H3 as [|? b0 ? bs Hb Hbs]; subst. exists (BR false b0). split; auto. apply Hj.
           exists (i + length (r :: pre)), (bs ++ [b1]). split; auto. apply IH. left.
           exists pre, r', post, bs, b1. repeat split; auto. cbn [length]. f_equal. lia.
      * inversion H3 as [|? b0 ? bs Hb Hbs]; subst. exists (BR false b0). split; auto. apply Hj.
        exists (i + length (r :: rs)), bs. split; auto. apply IH. right. exists bs. repeat split; auto.
        cbn [length]. f_equal. lia.
Qed.

(** The condition of a choice matches iff some alternative's does. *)
Lemma choice_tries rs s ok b : Tries (RChc rs) s ok b ->
  (ok = true <-> exists r b, In r rs /\ Tries r s true b).
Proof.
  rewrite tries_shift. cbn [try_step]. rewrite t_chc_ev.
  intros [(pre & r & post & bs & b1 & -> & H3 & H4 & -> & ->)|(bs & H3 & -> & ->)].
  - split; auto. intros _. exists r, b1. rewrite in_app_iff. cbn. auto.
  - split; [discriminate|]. intros (r & b & Hi & Ht). exfalso.
    induction H3 as [|r0 b0 rs bs H0 H1 IH]; [destruct Hi|]. destruct Hi as [->|Hi]; auto.
    destruct (Tries_det _ _ _ _ _ _ _ _ H0 Ht). discriminate.
Qed.

(** Used as a branch, a choice does what it does on its own. *)
Lemma f_chc_ev c r post b1 o s' m pre : forall bs s, length bs = length pre ->
  ev (fun E => f_chc E c (pre ++ r :: post) (length pre) (bs ++ [b1]) final s []) (Res o s' m) ->
  exists ess, Forall2 (fun p es => Cancels (fst p) (snd p) es) (combine pre bs) ess /\
    ev (fun E => e_finish E c r b1 final (emits (concat ess) s) []) (Res o s' m).
Proof.
  induction pre as [|r0 pre IH]; intros bs s Hl H.
  - destruct bs; [|discriminate]. exists []. cbn [concat]. rewrite emits_nil. split; [constructor|exact H].
  - destruct bs as [|b0 bs]; [discriminate|]. cbn [app length f_chc hd tl] in H.
    unfold cancel_then in H.
    apply (ev_bind inp prods None NoFuel (fun E => e_cancel E r0 b0)
      (fun E y => match y with Some es => f_chc E c (pre ++ r :: post) (length pre) (bs ++ [b1]) final (emits es s) []
                  | None => NoFuel end)) in H; auto using mono_cancel; [|discriminate].
    destruct H as ([es|] & H1 & H2); [|apply ev_const in H2; discriminate].
    apply IH in H2; [|cbn in Hl; lia]. destruct H2 as (ess & H3 & H4).
    exists (es :: ess). cbn [combine concat]. rewrite emits_app in H4. split; [constructor|]; auto.
Qed.

Theorem choice_takes c rs s o s' : Takes c (RChc rs) s o s' -> Runs c (RChc rs) s o s'.
Proof.
  intros (b & Ht & Hf). rewrite tries_shift in Ht. cbn [try_step] in Ht. rewrite t_chc_ev in Ht.
  destruct Ht as [(pre & r & post & bs & b1 & -> & H3 & H4 & _ & ->)|(bs & _ & H & _)]; [|discriminate].
  apply Finishes_shift in Hf. destruct Hf as [m Hf]. cbn [finish_step] in Hf. rewrite Nat.add_0_l in Hf.
  apply f_chc_ev in Hf; [|clear - H3; induction H3; cbn; congruence]. destruct Hf as (ess & H5 & H6).
  apply choice_runs. left. exists pre, r, post, (concat ess), b1. repeat split; auto; [|now exists m].
  clear - H3 H5. revert ess H5. induction H3 as [|r0 b0 pre bs H0 H1 IH]; intros ess H5.
  - inversion H5. constructor.
  - cbn [combine] in H5. inversion H5 as [|? es ? ess' H6 H7]; subst. cbn [concat]. constructor; auto.
    exists b0. auto.
Qed.

(** ** Context variables *)
Lemma assigned_names l : forall h l', assigned h l l' -> map fst l' = map fst l.
Proof.
  induction l as [|[i v] l IH]; intros h [|[j w] l']; cbn [assigned]; try tauto.
  intros (-> & _ & H). cbn. f_equal. eauto.
Qed.

Lemma Runs_assigned c r s o s' : pos s <= length inp -> Runs c r s o s' -> assigned [] (vars s) (vars s').
Proof. intros Hp H. pose proof (Runs_Mv _ _ _ _ _ _ _ Hp H) as (es & _ & _ & _ & _ & _ & Ha). exact Ha. Qed.

Lemma unlink_cons x l s : vars s = x :: l -> vars (unlink (length l) s) = l.
Proof.
  intros H. unfold unlink. cbn [vars setvars]. rewrite H. cbn [length].
  replace (S (length l) - length l) with 1 by lia. reflexivity.
Qed.

Lemma create_vars c id v rs s o s1 : pos s <= length inp ->
  Runs c (RSeq rs) (setvars ((id, v) :: vars s) s) o s1 ->
  exists w l, vars s1 = (id, w) :: l /\ assigned [id] (vars s) l /\ vars (unlink (length (vars s)) s1) = l.
Proof.
  intros Hp H. apply Runs_assigned in H; auto. cbn [vars setvars] in H.
  destruct (vars s1) as [|[i w] l] eqn:He; cbn [assigned] in H; [tauto|]. destruct H as (-> & _ & H).
  exists w, l. repeat split; auto.
  pose proof (f_equal (@length _) (assigned_names _ _ _ H)) as Hl. rewrite !map_length in Hl. rewrite <- Hl.
  now apply (unlink_cons (id, w)).
Qed.

Lemma vget_vset id v l : forall w, vget id l = Some w -> vget id (vset id v l) = Some v.
Proof.
  induction l as [|[i x] l IH]; intros w; cbn; [discriminate|]. destruct (i =? id) eqn:He; cbn; rewrite He; eauto.
Qed.
Lemma vget_vset_other id j v l : id <> j -> vget j (vset id v l) = vget j l.
Proof.
  intros Hn. induction l as [|[i x] l IH]; cbn; auto. destruct (i =? id) eqn:He; cbn; [|now rewrite IH].
  apply Nat.eqb_eq in He. subst. destruct (id =? j) eqn:H2; auto. apply Nat.eqb_eq in H2. contradiction.
Qed.

Lemma set_runs c id b s o s' : Runs c (RCtxSet id b) s o s' <->
  o = OTrue [] /\ (exists w, vget id (vars s) = Some w) /\ s' = setvars (vset id (VBool b) (vars s)) s.
Proof.
  rewrite Runs_shift. cbn [parse_step]. unfold with_var. split.
  - intros [m H]. destruct (vget id (vars s)) as [w|] eqn:He; apply ev_const in H; [|discriminate].
    injection H as <- <- _. eauto.
  - intros (-> & (w & ->) & ->). exists 0. now apply ev_const.
Qed.
Lemma add_runs c id d s o s' : Runs c (RCtxAdd id d) s o s' <->
  o = OTrue [] /\ exists z, vget id (vars s) = Some (VInt z) /\ s' = setvars (vset id (VInt (z + d)) (vars s)) s.
Proof.
  rewrite Runs_shift. cbn [parse_step]. unfold with_var. split.
  - intros [m H]. destruct (vget id (vars s)) as [[]|] eqn:He; apply ev_const in H; try discriminate.
    injection H as <- <- _. eauto.
  - intros (-> & z & -> & ->). exists 0. now apply ev_const.
Qed.
Lemma val_runs c id s o s' : Runs c (RCtxVal id) s o s' <->
  exists v, vget id (vars s) = Some v /\ o = OTrue [v] /\ s' = s.
Proof.
  rewrite Runs_shift. cbn [parse_step]. unfold with_var. split.
  - intros [m H]. destruct (vget id (vars s)) as [v|] eqn:He; apply ev_const in H; [|discriminate].
    injection H as <- <- _. eauto.
  - intros (v & -> & -> & ->). exists 0. now apply ev_const.
Qed.

(** ** no_whitespace and the start of a parse *)
Theorem nows_runs c r w s vs s' : pos s <= length inp -> noesc r = true -> cx_ws c = Some w ->
  Runs c (RNoWs r) s (OTrue vs) s' ->
  exists l s1 s2, Goes inp prods c r (setwsf false s) l s1 vs /\ Ws inp prods c (setwsf true s1) s2 /\ s' = unlinks l s2.
Proof.
  intros Hp Hr Hw H. apply Runs_shift in H. destruct H as [m H]. apply ev_at in H. destruct H as [n H].
  cbn [parse_step length] in H. rewrite Hw in H.
  destruct (ge_parse _ _ _ (eng_good inp prods n) c r false (setwsf false s) Hp) as (d & Hd & Hgd).
  rewrite (Hd _ []) in H by reflexivity. destruct d as [o s1|l s1 v| |]; cbn [apply] in H; try discriminate.
  - exfalso. set (k := Cont false (fun s _ => Res OFalse s 0)).
    pose proof (noesc_prov inp prods n c r k (setwsf false s) [] Hr ltac:(intros; exact I)) as Hx.
    rewrite (Hd k []) in Hx by reflexivity. destruct o; cbn in Hx, H; try contradiction; discriminate.
  - cbn [nows_cont k_fn app] in H.
    destruct (ws_then (eng n) c final (setwsf true s1) v) as [o2 s2 m2| |] eqn:He;
      rewrite ?posts_Res, ?posts_NoFuel, ?posts_Crash in H; try discriminate.
    injection H as -> <- <-. apply ws_then_bwd in He; [|reflexivity]. destruct He as (s3 & He & [= <- <- _]).
    exists l, s1, s3. repeat split; auto. exists n. exact Hd.
Qed.

Theorem action_runs n p vs s m : action inp prods n p = Res (OTrue vs) s m ->
  let c := Cx (p_ws (prods p)) (p_max (prods p)) in
  exists s1 s2, Ws inp prods c (St 0 0 true [] [EPStart p 0; EGStart 0]) s1 /\
    Runs c (p_rule (prods p)) s1 (OTrue vs) s2 /\
    s = emit (EGFinish (pos s2)) (emit (EPFinish p (pos s2)) s2).
Proof.
  intros H c. unfold action, do_action in H. fold c in H.
  match type of H with match ?x with _ => _ end = _ => destruct x as [[|vs'| |] s2 m'| |] eqn:He end; try discriminate.
  injection H as -> <- _. apply ws_then_bwd in He; [|reflexivity]. destruct He as (s1 & H1 & H2).
  cbn [k_fn] in H2. exists s1, s2. repeat split; auto. eapply parse_Runs; eauto.
Qed.

End Facts.
