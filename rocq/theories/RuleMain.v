(** From the induction over the engine to statements about whole parses. *)
From Verif Require Import Prelude RuleModel RuleSpec RuleDen RuleGood ActionModel.
Close Scope N_scope.

Section Main.
Variable inp : list N.
Variable prods : nat -> production.

Lemma action_dres n p :
  dres inp prods (weak (p_rule (prods p)) || weakc (Cx (p_ws (prods p)) (p_max (prods p))))
       (St 0 0 true [] []) (action inp prods n p).
Proof.
  unfold action. apply do_action_d.
  - apply eng_good.
  - unfold ok. cbn. lia.
  - intros H. now apply orb_false_iff in H.
Qed.

Lemma action_mv n p o s m : action inp prods n p = Res o s m -> Mv inp (St 0 0 true [] []) s.
Proof.
  intros H. pose proof (action_dres n p) as Hd. rewrite H in Hd.
  destruct o; cbn in Hd; destruct Hd as [Hd _]; auto. apply Hd.
Qed.

Lemma action_events n p o s m : action inp prods n p = Res o s m ->
  tile 0 (rev (trace s)) = Some (pos s) /\ balanced (rev (trace s)) /\
  Forall (ev_in (length inp)) (rev (trace s)) /\ pos s <= length inp.
Proof.
  intros H. apply action_mv in H. destruct H as (es & He & (Ht & _) & Hb & Hi & Ho & _).
  unfold ext in He. cbn in He. rewrite app_nil_r in He. rewrite He, rev_involutive. auto.
Qed.

Lemma action_segment n p o s m : action inp prods n p = Res o s m ->
  segment 0 (rev (trace s)) (pos s).
Proof.
  intros H. apply action_mv in H. destruct H as (es & He & (_ & Hg) & _).
  unfold ext in He. cbn in He. rewrite app_nil_r in He. now rewrite He, rev_involutive.
Qed.

Lemma action_failure n p s m : guarded prods -> action inp prods n p = Res OFalse s m ->
  has_error (rev (trace s)) = true.
Proof.
  intros Hg H. pose proof (action_dres n p) as Hd. rewrite H in Hd. cbn in Hd.
  destruct Hd as [[_ Hd] _]. destruct (Hg p) as [Hw Hws].
  destruct Hd as (es & He & Hr); auto.
  - rewrite Hw. unfold weakc. cbn. destruct (p_ws (prods p)); auto.
  - unfold ext in He. cbn in He. rewrite app_nil_r in He. now rewrite He, rev_involutive.
Qed.

(** The only results of an action are success and failure. *)
Lemma action_out n p o s m : action inp prods n p = Res o s m -> o = OFalse \/ exists vs, o = OTrue vs.
Proof.
  unfold action, do_action. destruct (ws_then _ _ _ _ _) as [[] s1 m1| |]; try discriminate;
    intros [= <- _ _]; eauto.
Qed.

(** ** Tokens spell the input *)
Lemma tile_spell es : forall p q, tile p es = Some q -> q <= length inp ->
  concat (map (fun t => slice inp (fst t) (snd t)) (tokens es)) = slice inp p q.
Proof.
  induction es as [|e es IH]; intros p q Ht Hq.
  - injection Ht as ->. unfold slice. cbn. now rewrite Nat.sub_diag.
  - destruct e; cbn [tile tokens] in *; auto.
    destruct ((b =? p) && (b <=? e)) eqn:H; [|discriminate].
    apply andb_true_iff in H. destruct H as [H1 H2].
    apply Nat.eqb_eq in H1. apply Nat.leb_le in H2. subst b.
    pose proof (tile_le _ _ _ Ht) as H3.
    cbn [map concat fst snd]. rewrite (IH _ _ Ht Hq). unfold slice.
    replace (skipn e inp) with (skipn (e - p) (skipn p inp)).
    2: { rewrite skipn_skipn. f_equal. lia. }
    rewrite <- (firstn_skipn (e - p) (firstn (q - p) (skipn p inp))).
    rewrite firstn_firstn, Nat.min_l by lia. f_equal.
    rewrite skipn_firstn_comm. f_equal. lia.
Qed.

Lemma tile_contig es : forall p q, tile p es = Some q -> contiguous p (tokens es) q.
Proof.
  induction es as [|e es IH]; intros p q Ht.
  - injection Ht as ->. constructor.
  - destruct e; cbn [tile tokens] in *; auto.
    destruct ((b =? p) && (b <=? e)) eqn:H; [|discriminate].
    apply andb_true_iff in H. destruct H as [H1 H2].
    apply Nat.eqb_eq in H1. apply Nat.leb_le in H2. subst b. constructor; auto.
Qed.

(** ** Actions *)
Lemma mh_fold es b : fold_left mh_on es b = b || has_error es.
Proof.
  revert b. induction es as [|e es IH]; intros b; cbn.
  - now rewrite orb_false_r.
  - rewrite IH. destruct e; cbn; rewrite ?orb_true_r; auto.
Qed.

Lemma vh_fold tr es v :
  length (v_errors (fold_left (vh_on tr) es v)) = length (v_errors v) + length (filter is_err es).
Proof.
  revert v. induction es as [|e es IH]; intros v; cbn; [lia|].
  rewrite IH. destruct e; cbn; rewrite ?app_length; cbn; lia.
Qed.

Lemma has_error_len es : has_error es = negb (length (filter is_err es) =? 0).
Proof.
  unfold has_error. induction es as [|e es IH]; cbn; auto. destruct (is_err e); cbn; auto.
Qed.

Lemma pth_none tr es : fold_left (pth_on tr) es None = None.
Proof. induction es; cbn; auto. Qed.

Lemma pth_fold tr es : forall d v d' v',
  fold_left (pth_on tr) es (Some (d, v)) = Some (d', v') -> v' = fold_left (vh_on tr) es v.
Proof.
  induction es as [|e es IH]; intros d v d' v'; cbn [fold_left].
  - now intros [= _ <-].
  - destruct e; cbn [pth_on]; try (apply IH); destruct (d =? 0); try apply IH;
      rewrite pth_none; discriminate.
Qed.

Lemma vh_errors tr es v :
  map (fun r => (r_tag r, r_from r, r_to r)) (v_errors (fold_left (vh_on tr) es v)) =
  map (fun r => (r_tag r, r_from r, r_to r)) (v_errors v) ++ errors es.
Proof.
  revert v. induction es as [|e es IH]; intros v; cbn; [now rewrite app_nil_r|].
  rewrite IH. destruct e; cbn; auto. now rewrite map_app, <- app_assoc.
Qed.

Lemma validate_errors tr n p o s m : action inp prods n p = Res o s m ->
  exists st errs, do_validate inp prods tr n p = Some (st, errs) /\
    map (fun r => (r_tag r, r_from r, r_to r)) errs = errors (rev (trace s)).
Proof.
  intros H. unfold do_validate. rewrite H. do 2 eexists. split; [reflexivity|].
  unfold vh_of. now rewrite vh_errors.
Qed.

Lemma actions_agree tr n p : guarded prods ->
  (forall b st errs, do_match inp prods n p = Some b -> do_validate inp prods tr n p = Some (st, errs) ->
     (b = true <-> errs = []) /\ (b = true <-> st = Success)) /\
  (forall st errs st' errs' v, do_validate inp prods tr n p = Some (st, errs) ->
     do_parse inp prods tr n p = Some (st', errs', v) ->
     st' = st /\ errs' = errs /\ (v <> None <-> st <> Fatal)) /\
  (forall st errs st' errs', do_validate inp prods tr n p = Some (st, errs) ->
     do_tree inp prods tr n p = Some (Some (st', errs')) -> st' = st /\ errs' = errs).
Proof.
  intros Hg. unfold do_match, do_validate, do_parse, do_tree.
  destruct (action inp prods n p) as [o s m| |] eqn:Ha; cbn [run]; [|repeat split; discriminate..].
  assert (Hf : o = OFalse -> has_error (rev (trace s)) = true).
  { intros ->. eapply action_failure; eauto. }
  set (es := rev (trace s)) in *.
  pose proof (vh_fold tr es (VState [] [])) as Hl. cbn in Hl. fold (vh_of tr es) in Hl.
  unfold validate_of, parse_of, tree_of, match_of.
  rewrite mh_fold. cbn [orb]. unfold mh_result.
  pose proof (has_error_len es) as He.
  destruct (action_out _ _ _ _ _ Ha) as [-> |[vs ->]]; cbn [rule_result].
  - specialize (Hf eq_refl). rewrite He in Hf. unfold status_of, validate_of. rewrite Hl.
    destruct (length (filter is_err es)) as [|k]; [discriminate|]. cbn [Nat.eqb].
    split; [|split].
    + intros b st errs [= <-] [= <- <-]. split; split; try discriminate.
      intros E. rewrite E in Hl. discriminate.
    + intros st errs st' errs' v [= <- <-] [= <- <- <-]. repeat split; auto.
    + intros st errs st' errs' [= <- <-].
      destruct (fold_left (pth_on tr) es (Some (0, VState [] []))) as [[[|d] v]|] eqn:Ht; try discriminate.
      apply pth_fold in Ht. subst v. fold (vh_of tr es). rewrite Hl. intros [= <- <-]. auto.
  - rewrite He. unfold status_of, validate_of. rewrite Hl.
    split; [|split].
    + intros b st errs [= <-] [= <- <-]. cbn [andb]. rewrite negb_involutive.
      destruct (length (filter is_err es)) as [|k]; cbn [Nat.eqb].
      * split; split; auto. intros _. now apply length_zero_iff_nil.
      * split; split; try discriminate. intros E. rewrite E in Hl. discriminate.
    + intros st errs st' errs' v [= <- <-] [= <- <- <-]. repeat split; auto.
      * intros _. destruct (_ =? 0); discriminate.
      * discriminate.
    + intros st errs st' errs' [= <- <-].
      destruct (fold_left (pth_on tr) es (Some (0, VState [] []))) as [[[|d] v]|] eqn:Ht; try discriminate.
      apply pth_fold in Ht. subst v. fold (vh_of tr es). rewrite Hl. intros [= <- <-]. auto.
Qed.

Lemma action_parts n p o s m : action inp prods n p = Res o s m ->
  exists es, rev (trace s) =
    [EGStart 0; EPStart p 0] ++ es ++
    (match o with OFalse => [EPCancel p (pos s); EGCancel (pos s)]
                | _ => [EPFinish p (pos s); EGFinish (pos s)] end) /\
    segment 0 es (pos s) /\ balanced es.
Proof.
  unfold action, do_action.
  set (c := Cx (p_ws (prods p)) (p_max (prods p))).
  set (s0 := emit (EPStart p (pos (St 0 0 true [] []))) (emit (EGStart (pos (St 0 0 true [] []))) (St 0 0 true [] []))).
  assert (Hd : dres inp prods true s0
     (ws_then (eng inp prods n) c (Cont false (e_parse (eng inp prods n) c (p_rule (prods p)) final)) s0 [])).
  { apply ws_action_d; [apply eng_good| |discriminate]. unfold ok. cbn. lia. }
  destruct (ws_then _ c _ s0 []) as [o1 s1 m1| |]; try discriminate.
  assert (Hm : Mv inp s0 s1) by (destruct o1; cbn in Hd; [|apply Hd..]; apply Hd).
  clear Hd. destruct Hm as (es & He & (_ & Hg) & Hb & _). unfold ext in He.
  destruct o1; try discriminate; intros [= <- <- _]; exists es; (split; [|split; assumption]); cbn [emit trace pos rev]; rewrite He;
    rewrite rev_app_distr, rev_involutive; cbn; rewrite <- ?app_assoc; reflexivity.
Qed.

Lemma action_frame n p o s m : action inp prods n p = Res o s m ->
  exists es, rev (trace s) =
    [EGStart 0; EPStart p 0] ++ es ++
    (match o with OFalse => [EPCancel p (pos s); EGCancel (pos s)]
                | _ => [EPFinish p (pos s); EGFinish (pos s)] end).
Proof. intros H. destruct (action_parts _ _ _ _ _ H) as (es & He & _). eauto. Qed.

End Main.

Lemma contiguous_le p ts q : contiguous p ts q -> p <= q.
Proof. induction 1; lia. Qed.

Lemma contiguous_app p ts ts' q : contiguous p (ts ++ ts') q ->
  exists m, contiguous p ts m /\ contiguous m ts' q.
Proof.
  revert p. induction ts as [|[b e] ts IH]; intros p; cbn.
  - intros H. exists p. split; [constructor|exact H].
  - inversion 1 as [|? ? ? ? H1 H2]; subst. apply IH in H2. destruct H2 as (m & H2 & H3).
    exists m. split; [now constructor|exact H3].
Qed.
