(** Whole expressions: the lemmas behind C45, C46 and C47. *)
From Verif Require Import Prelude ExprModel ExprSpec ExprTable ExprProofs ExprFuel ExprComplete ExprBridge ExprGrammar ExprLimit.
Open Scope nat_scope.

Section Main.
Variable tbl : operation.
Hypothesis Hok : table_ok tbl.
Variable max_nesting : nat.
Variable input : list N.
Variable atom : nat -> bool * nat.
Variable op_rest : nat -> nat -> nat -> bool * nat.
Notation expr := (expr tbl max_nesting input atom op_rest).
Notation reads := (reads tbl input atom op_rest).

Lemma expr_parse fuel root start ok s : expr fuel root start = Some (ok, s) ->
  exists ok', parse tbl max_nesting input atom op_rest fuel (min_bp tbl root) (St start 0 0 None []) = Done ok' s /\
    ok = match val s with Some _ => true | None => false end.
Proof.
  unfold ExprModel.expr. destruct (parse _ _ _ _ _ _ _ _) as [ok' s'| |]; [|discriminate|discriminate].
  intros [= <- <-]. eauto.
Qed.

(** What error-free events mean, with any root. *)
Lemma expr_sound fuel root start ok s : expr fuel root start = Some (ok, s) -> no_errors (evs s) ->
  ok = true /\ exists t, val s = Some t /\ inv tbl input atom op_rest (min_bp tbl root) t start (pos s) /\
    stops tbl input (min_bp tbl root) (pos s) /\
    respects tbl t /\ unmixed tbl t /\ nest s = applications t /\ applications t <= max_nesting /\
    replay (evs s) [[]] = [nodes t].
Proof.
  intros H He. apply expr_parse in H. destruct H as (ok' & H & ->).
  destruct (proj1 (sound_all tbl max_nesting input atom op_rest Hok fuel) _ _ _ _ H) as (d & E & K).
  cbn in E. rewrite E in He. destruct (K He) as (-> & t & V & (I & G & _ & N1 & N2 & R) & S).
  rewrite V. split; [reflexivity|]. exists t. split; [reflexivity|].
  cbn [pos nest] in *. split; [exact I|]. split; [exact S|].
  assert (Kd : Forall (of_kind tbl (fun _ => True)) (ops t)).
  { destruct I as (_ & B & _). exact (proj2 (proj2 (proj2 (proj1 (kinded_edges tbl) t (proj1 (respb_kinded tbl) t B))))). }
  destruct (unmixed_of_numbers tbl Hok (ops t) (grp s) Kd G) as (g & Hg).
  split; [exact (proj1 (respb_respects_all tbl Hok g) t (proj1 (proj2 I)) Hg)|].
  split; [exists g; exact Hg|]. split; [exact N1|]. split; [unfold nest_ok in N2; cbn in N2; lia|].
  rewrite E. exact (R [] []).
Qed.

Lemma expr_det f f' root start r r' : expr f root start = Some r -> expr f' root start = Some r' -> r = r'.
Proof.
  destruct r as (ok, s), r' as (ok', s'). intros H H'. apply expr_parse in H, H'.
  destruct H as (o & H & ->), H' as (o' & H' & ->).
  destruct (parse_det _ _ _ _ _ _ _ _ _ _ _ _ _ H H') as (_ & ->). reflexivity.
Qed.

Lemma expr_terminates fuel root start : 4 * length input + 3 <= fuel -> exists ok s, expr fuel root start = Some (ok, s).
Proof.
  intros L. destruct (parse_terminates tbl max_nesting input atom op_rest Hok fuel (min_bp tbl root) (St start 0 0 None []) L)
    as (ok & s & E). unfold ExprModel.expr. rewrite E. eauto.
Qed.

(** The minimum binding power of a declared root. *)
Lemma min_bp_root d : declared tbl d ->
  min_bp tbl (OOp (d_id d) (d_kind d) (d_lits d) OAtom) = (if is_pre (d_kind d) then right_power d else left_power d).
Proof.
  intros Hd. cbn [min_bp]. destruct (bp_sides tbl Hok d Hd) as (El & Er). unfold bp_is_prefix. rewrite El, Er.
  pose proof (level_pos tbl d Hd) as L. unfold left_power, right_power. destruct (d_kind d); cbn; try reflexivity;
  destruct (d_level d) as [|l]; try lia; reflexivity.
Qed.

(** Operators at the left end bound the operators of a tree. *)
Definition at_least (l q : nat) : Prop := exists d, declared tbl d /\ d_id d = q /\ l <= d_level d.
Lemma at_least_tighter l q o : tighter tbl q o -> at_least l o -> at_least l q.
Proof.
  intros (dq & d & Hq & Hd & Eq & Ed & L) (d' & Hd' & Ed' & L').
  assert (d' = d) by (apply (declared_id tbl Hok); congruence). subst d'. exists dq. split; [exact Hq|]. split; [exact Eq|]. lia.
Qed.
Lemma at_least_all l :
  (forall t, respects tbl t -> Forall (at_least l) (left_edge t) -> Forall (at_least l) (left_prefix t) ->
     Forall (at_least l) (ops t)) /\
  (forall sp, respects_sp tbl sp -> Forall (at_least l) (left_edge_sp sp) -> Forall (at_least l) (left_prefix_sp sp) ->
     Forall (at_least l) (ops_sp sp)).
Proof.
  assert (T : forall o es, at_least l o -> Forall (fun q => tighter tbl q o) es -> Forall (at_least l) es).
  { intros o es Ho. apply Forall_impl. intros q H. eapply at_least_tighter; eauto. }
  apply tree_spine_ind.
  - cbn. auto.
  - intros o t IH (_ & Rt & H1 & H2) _ L. cbn in L |- *. apply Forall_inv in L. constructor; [exact L|].
    apply IH; [exact Rt|eapply T; eauto|]. eapply Forall_impl; [|exact H2].
    intros q [H| ->]; [eapply at_least_tighter; eauto|exact L].
  - intros t IH o (_ & Rt & _) L P. cbn in *. apply Forall_cons_iff in L. destruct L as (Lo & L).
    apply Forall_app. split; [apply IH; auto|constructor; auto].
  - intros a IHa o b IHb (_ & Ra & Rb & _ & H1 & H2) L P. cbn in *. apply Forall_cons_iff in L. destruct L as (Lo & L).
    apply Forall_app. split; [apply IHa; auto|]. constructor; [exact Lo|]. apply IHb; [exact Rb| |eapply T; eauto].
    eapply Forall_impl; [|exact H1]. intros q [H|( -> & _)]; [eapply at_least_tighter; eauto|exact Lo].
  - intros sp IH dg (_ & _ & R) L P. cbn. apply IH; auto.
  - intros t IH R L P. cbn. apply IH; auto.
  - intros sp IHs o t IHt (Rs & Rt & _ & _ & H) L P. cbn in *. apply Forall_cons_iff in L. destruct L as (Lo & L).
    apply Forall_app in H. destruct H as (H1 & H2).
    apply Forall_app. split; [apply IHs; auto|]. constructor; [exact Lo|]. apply IHt; [exact Rt|eapply T; eauto|eapply T; eauto].
Qed.

Lemma subexpr_ops fuel d start ok s :
  declared tbl d -> expr fuel (OOp (d_id d) (d_kind d) (d_lits d) OAtom) start = Some (ok, s) -> no_errors (evs s) ->
  exists t, val s = Some t /\ Forall (at_least (d_level d)) (ops t) /\
    (forall d', declared tbl d' -> is_pre (d_kind d') = false -> d_level d < d_level d' -> absent input d' (pos s)) /\
    (is_pre (d_kind d) = false -> absent input d (pos s)).
Proof.
  intros Hd H He. destruct (expr_sound _ _ _ _ _ H He) as (_ & t & V & I & S & R & _).
  exists t. split; [exact V|]. rewrite (min_bp_root d Hd) in *.
  destruct I as (_ & B & L & P & _).
  destruct (proj1 (kinded_edges tbl) t (proj1 (respb_kinded tbl) t B)) as (A1 & A2 & _).
  split; [|split].
  - apply (proj1 (at_least_all (d_level d))); [exact R| |].
    + rewrite Forall_forall in *. intros q Hq. destruct (A1 q Hq) as (dq & Dq & Eq & Kq). exists dq. split; [exact Dq|].
      split; [exact Eq|]. specialize (L q Hq). cbn beta in L. rewrite <- Eq in L. rewrite (lb_power tbl Hok dq Dq) in L.
      revert L. unfold left_power, right_power. destruct (d_kind d), (d_kind dq); cbn in *; try discriminate; try contradiction; lia.
    + rewrite Forall_forall in *. intros q Hq. destruct (A2 q Hq) as (dq & Dq & Eq & Kq). exists dq. split; [exact Dq|].
      split; [exact Eq|]. specialize (P q Hq). cbn beta in P. rewrite <- Eq in P. rewrite (rb_power tbl Hok dq Dq) in P.
      revert P. rewrite Kq || idtac. unfold left_power, right_power. destruct (d_kind d), (d_kind dq); cbn in *; try discriminate; try contradiction; lia.
  - intros d' Hd' K' Lt. apply S; auto. unfold left_power, right_power.
    destruct (d_kind d), (d_kind d'); cbn in *; try discriminate; lia.
  - intros K. apply S; auto. rewrite K. lia.
Qed.

(** ** Completeness *)
Section Accept.
Hypothesis Hun : unambiguous tbl.
Hypothesis Hat : forall p n, atom p = (true, n) -> forall d, declared tbl d -> d_kind d = KPre -> absent input d p.

Lemma expr_accepts t start e : reads t start e -> respects tbl t -> unmixed tbl t ->
  (forall d, declared tbl d -> is_pre (d_kind d) = false -> absent input d e) ->
  applications t <= max_nesting ->
  exists fuel s, expr fuel tbl start = Some (true, s) /\ no_errors (evs s) /\ val s = Some t /\ pos s = e.
Proof.
  intros R Rs (g & Hg) He Hn.
  destruct (numbers_of_unmixed tbl Hok g (ops t) Hg) as (n & Hn').
  assert (B : respb tbl t) by exact (proj1 (respects_respb_all tbl Hok) t Rs).
  destruct (proj1 (kinded_edges tbl) t (proj1 (respb_kinded tbl) t B)) as (A1 & A2 & A3 & _).
  destruct (complete_parse tbl max_nesting input atom op_rest Hat n t (min_bp tbl tbl) (St start 0 0 None []) e) as (s & (f & E) & (P & _ & _ & d & Ev & Ne) & V).
  - apply complete_all; assumption.
  - split; [exact R|]. split; [exact B|]. split; [|split].
    + eapply Forall_impl; [|exact A1]. intros q (dq & Dq & <- & K). rewrite (lb_power tbl Hok dq Dq).
      pose proof (root_min tbl Hok dq Dq) as M. cbn beta in K. rewrite K in M. exact M.
    + eapply Forall_impl; [|exact A2]. intros q (dq & Dq & <- & K). rewrite (rb_power tbl Hok dq Dq).
      pose proof (root_min tbl Hok dq Dq) as M. cbn beta in K. rewrite K in M. exact M.
    + eapply Forall_impl; [|exact A3]. intros q _. split.
      * intros d Hd K _. apply He; auto.
      * intros d Hd _ K. apply He; auto. destruct K as [-> | ->]; reflexivity.
  - left. reflexivity.
  - exact Hn'.
  - exact Hn.
  - intros d Hd K _. apply He; auto.
  - exists f, s. unfold ExprModel.expr. rewrite E, V. cbn in Ev. rewrite Ev. auto.
Qed.
End Accept.
End Main.

Lemma expr_limit tbl max_nesting input atom op_rest t start e : table_ok tbl -> unambiguous tbl ->
  (forall p n, atom p = (true, n) -> forall d, declared tbl d -> d_kind d = KPre -> absent input d p) ->
  reads tbl input atom op_rest t start e -> respects tbl t -> unmixed tbl t ->
  (forall d, declared tbl d -> is_pre (d_kind d) = false -> absent input d e) ->
  forall fuel ok s, expr tbl max_nesting input atom op_rest fuel tbl start = Some (ok, s) ->
    (nesting_error (evs s) <-> max_nesting < applications t).
Proof.
  intros Hok Hun Hat R Rs U He fuel ok s H. split.
  - intros (b & m & Hin). destruct (Nat.lt_ge_cases max_nesting (applications t)) as [L|L]; [exact L|exfalso].
    destruct (expr_accepts tbl Hok max_nesting input atom op_rest Hun Hat t start e R Rs U He L) as (f' & s' & H' & N & _).
    pose proof (expr_det _ _ _ _ _ _ _ _ _ _ _ H H') as E. injection E as -> ->. apply N in Hin. discriminate.
  - intros L.
    destruct (expr_accepts tbl Hok (applications t) input atom op_rest Hun Hat t start e R Rs U He (le_n _)) as (f' & s' & H' & N & V & P).
    destruct (expr_parse _ _ _ _ _ _ _ _ _ _ H) as (o & E & _).
    pose proof (proj1 (same_or_hit_all tbl max_nesting (applications t) ltac:(lia) input atom op_rest fuel)
                  (min_bp tbl tbl) (St start 0 0 None [])) as S. rewrite E in S. destruct S as [S|S]; [exfalso|exact S].
    destruct (expr_parse _ _ _ _ _ _ _ _ _ _ H') as (o' & E' & _). symmetry in S.
    destruct (parse_det _ _ _ _ _ _ _ _ _ _ _ _ _ S E') as (_ & ->).
    destruct (expr_sound tbl Hok _ _ _ _ _ _ _ _ _ H N) as (_ & t' & V' & _ & _ & _ & _ & _ & A & _).
    rewrite V in V'. injection V' as <-. lia.
Qed.

Lemma applications_nesting : (forall t, nesting t <= applications t) /\ (forall sp, nesting_sp sp <= applications_sp sp).
Proof. apply tree_spine_ind; intros; cbn [nesting applications nesting_sp applications_sp]; lia. Qed.

(** ** The statements of the properties *)
Lemma expr_tree tbl max_nesting input atom op_rest fuel start ok s : table_ok tbl ->
  expr tbl max_nesting input atom op_rest fuel tbl start = Some (ok, s) -> no_errors (evs s) ->
  ok = true /\ exists t, val s = Some t /\
    reads tbl input atom op_rest t start (pos s) /\ respects tbl t /\ unmixed tbl t /\
    forall d, declared tbl d -> is_pre (d_kind d) = false -> absent input d (pos s).
Proof.
  intros Hok H He. destruct (expr_sound tbl Hok _ _ _ _ _ _ _ _ _ H He) as (-> & t & V & I & S & R & U & _).
  split; [reflexivity|]. exists t. split; [exact V|]. split; [exact (proj1 I)|]. split; [exact R|]. split; [exact U|].
  intros d Hd K. apply S; auto. pose proof (root_min tbl Hok d Hd) as M. rewrite K in M. exact M.
Qed.
Lemma expr_events tbl max_nesting input atom op_rest fuel start ok s t : table_ok tbl ->
  expr tbl max_nesting input atom op_rest fuel tbl start = Some (ok, s) -> no_errors (evs s) ->
  val s = Some t -> replay (evs s) [[]] = [nodes t].
Proof.
  intros Hok H He V. destruct (expr_sound tbl Hok _ _ _ _ _ _ _ _ _ H He) as (_ & t' & V' & _ & _ & _ & _ & _ & _ & R).
  rewrite V in V'. injection V' as <-. exact R.
Qed.
Lemma error_dec : forall l, no_errors l \/ exists e, In e l /\ is_error e = true.
Proof.
  induction l as [|e l [IH|(e' & H1 & H2)]]; [left; intros ? []| |right; exists e'; split; [right; exact H1|exact H2]].
  destruct (is_error e) eqn:E; [right; exists e; split; [left; reflexivity|exact E]|left].
  intros e' [<-|H]; [exact E|apply IH; exact H].
Qed.
Lemma expr_failure tbl max_nesting input atom op_rest fuel start s : table_ok tbl ->
  expr tbl max_nesting input atom op_rest fuel tbl start = Some (false, s) ->
  exists e, In e (evs s) /\ is_error e = true.
Proof.
  intros Hok H. destruct (error_dec (evs s)) as [N|E]; [|exact E].
  destruct (expr_sound tbl Hok _ _ _ _ _ _ _ _ _ H N) as (C & _). discriminate.
Qed.
Lemma expr_sub tbl max_nesting input atom op_rest fuel d start ok s : table_ok tbl ->
  declared tbl d ->
  expr tbl max_nesting input atom op_rest fuel (OOp (d_id d) (d_kind d) (d_lits d) OAtom) start = Some (ok, s) ->
  no_errors (evs s) ->
  exists t, val s = Some t /\ reads tbl input atom op_rest t start (pos s) /\ respects tbl t /\
    Forall (fun q => exists d', declared tbl d' /\ d_id d' = q /\ d_level d <= d_level d') (ops t) /\
    (forall d', declared tbl d' -> is_pre (d_kind d') = false -> d_level d < d_level d' -> absent input d' (pos s)) /\
    (is_pre (d_kind d) = false -> absent input d (pos s)).
Proof.
  intros Hok Hd H He. destruct (subexpr_ops tbl Hok _ _ _ _ _ _ _ _ _ Hd H He) as (t & V & A & B & C).
  destruct (expr_sound tbl Hok _ _ _ _ _ _ _ _ _ H He) as (_ & t' & V' & I & _ & R & _).
  rewrite V in V'. injection V' as <-. exists t. split; [exact V|]. split; [exact (proj1 I)|]. auto.
Qed.
Lemma expr_grammar tbl max_nesting input atom op_rest fuel start ok s :
  table_ok tbl -> groups_ok tbl -> tight_postfix tbl ->
  expr tbl max_nesting input atom op_rest fuel tbl start = Some (ok, s) -> no_errors (evs s) ->
  exists t, val s = Some t /\ reads tbl input atom op_rest t start (pos s) /\ grammar tbl t.
Proof.
  intros Hok Hg Ht H He. destruct (expr_tree _ _ _ _ _ _ _ _ _ Hok H He) as (_ & t & V & R & Rs & U & _).
  exists t. split; [exact V|]. split; [exact R|]. apply respects_grammar; auto.
Qed.
Lemma expr_accepts_grammar tbl max_nesting input atom op_rest t start e :
  table_ok tbl -> unambiguous tbl ->
  (forall p n, atom p = (true, n) -> forall d, declared tbl d -> d_kind d = KPre -> absent input d p) ->
  grammar tbl t -> unmixed tbl t -> reads tbl input atom op_rest t start e ->
  (forall d, declared tbl d -> is_pre (d_kind d) = false -> absent input d e) ->
  applications t <= max_nesting ->
  exists fuel s, expr tbl max_nesting input atom op_rest fuel tbl start = Some (true, s) /\
    no_errors (evs s) /\ val s = Some t /\ pos s = e.
Proof. intros Hok Hun Hat G U R He L. apply expr_accepts; auto. apply grammar_respects; auto. Qed.
Lemma expr_exactly tbl max_nesting input atom op_rest t start e :
  table_ok tbl -> unambiguous tbl ->
  (forall p n, atom p = (true, n) -> forall d, declared tbl d -> d_kind d = KPre -> absent input d p) ->
  (exists fuel s, expr tbl max_nesting input atom op_rest fuel tbl start = Some (true, s) /\
     no_errors (evs s) /\ val s = Some t /\ pos s = e) <->
  (reads tbl input atom op_rest t start e /\ respects tbl t /\ unmixed tbl t /\ applications t <= max_nesting /\
   forall d, declared tbl d -> is_pre (d_kind d) = false -> absent input d e).
Proof.
  intros Hok Hun Hat. split.
  - intros (f & s & H & N & V & P).
    destruct (expr_tree _ _ _ _ _ _ _ _ _ Hok H N) as (_ & t' & V' & R & Rs & U & A).
    destruct (expr_sound tbl Hok _ _ _ _ _ _ _ _ _ H N) as (_ & t'' & V'' & _ & _ & _ & _ & _ & L & _).
    rewrite V in V', V''. injection V' as <-. injection V'' as <-. rewrite P in *. auto.
  - intros (R & Rs & U & L & A). apply expr_accepts; auto.
Qed.
Lemma expr_unique tbl input atom op_rest t t' start e e' :
  table_ok tbl -> unambiguous tbl ->
  (forall p n, atom p = (true, n) -> forall d, declared tbl d -> d_kind d = KPre -> absent input d p) ->
  respects tbl t -> unmixed tbl t -> reads tbl input atom op_rest t start e ->
  (forall d, declared tbl d -> is_pre (d_kind d) = false -> absent input d e) ->
  respects tbl t' -> unmixed tbl t' -> reads tbl input atom op_rest t' start e' ->
  (forall d, declared tbl d -> is_pre (d_kind d) = false -> absent input d e') ->
  t = t' /\ e = e'.
Proof.
  intros Hok Hun Hat R1 U1 D1 A1 R2 U2 D2 A2. set (m := applications t + applications t').
  destruct (expr_accepts tbl Hok m input atom op_rest Hun Hat t start e D1 R1 U1 A1 ltac:(lia)) as (f & s & H & _ & V & P).
  destruct (expr_accepts tbl Hok m input atom op_rest Hun Hat t' start e' D2 R2 U2 A2 ltac:(lia)) as (f' & s' & H' & _ & V' & P').
  pose proof (expr_det _ _ _ _ _ _ _ _ _ _ _ H H') as E. injection E as <-. rewrite V in V'. injection V' as <-.
  split; [reflexivity|congruence].
Qed.
Lemma expr_nesting tbl max_nesting input atom op_rest t start e :
  table_ok tbl -> unambiguous tbl ->
  (forall p n, atom p = (true, n) -> forall d, declared tbl d -> d_kind d = KPre -> absent input d p) ->
  reads tbl input atom op_rest t start e -> respects tbl t -> unmixed tbl t ->
  (forall d, declared tbl d -> is_pre (d_kind d) = false -> absent input d e) ->
  forall fuel ok s, expr tbl max_nesting input atom op_rest fuel tbl start = Some (ok, s) ->
    (nesting_error (evs s) <-> max_nesting < applications t) /\
    (max_nesting < nesting t -> nesting_error (evs s)).
Proof.
  intros Hok Hun Hat R Rs U A f ok s H.
  pose proof (expr_limit tbl max_nesting input atom op_rest t start e Hok Hun Hat R Rs U A f ok s H) as E.
  split; [exact E|]. intros L. apply E. pose proof (proj1 applications_nesting t). lia.
Qed.
