(** Completeness: a tree that respects the table is what the parser delivers for its
    text. *)
From Verif Require Import Prelude ExprModel ExprSpec ExprTable ExprProofs ExprFuel.
Open Scope nat_scope.

(** Induction over trees whose lists are a first operand and further items. *)
Fixpoint sp_head (sp : spine) : tree := match sp with SOne t => t | SMore sp _ _ => sp_head sp end.
Fixpoint sp_items (sp : spine) : list (opn * tree) :=
  match sp with SOne _ => [] | SMore sp o t => sp_items sp ++ [(o, t)] end.
Definition sp_add (sp : spine) (l : list (opn * tree)) : spine :=
  fold_left (fun sp p => SMore sp (fst p) (snd p)) l sp.
Lemma sp_rebuild sp : sp = sp_add (SOne (sp_head sp)) (sp_items sp).
Proof.
  induction sp as [t|sp IH o t]; [reflexivity|]. cbn. unfold sp_add in *. rewrite fold_left_app. cbn. now rewrite <- IH.
Qed.

Section TreeInd.
Variable P : tree -> Prop.
Hypothesis Hleaf : forall b e, P (Leaf b e).
Hypothesis Hpre : forall o t, P t -> P (Pre o t).
Hypothesis Hpost : forall t o, P t -> P (Post t o).
Hypothesis Hinf : forall l o r, P l -> P r -> P (Inf l o r).
Hypothesis Hlst : forall sp d, P (sp_head sp) -> Forall (fun p => P (snd p)) (sp_items sp) -> P (Lst sp d).
Fixpoint tree_ind' (t : tree) : P t :=
  match t with
  | Leaf b e => Hleaf b e
  | Pre o t => Hpre o t (tree_ind' t)
  | Post t o => Hpost t o (tree_ind' t)
  | Inf l o r => Hinf l o r (tree_ind' l) (tree_ind' r)
  | Lst sp d =>
    let H := spine_ind' sp in Hlst sp d (proj1 H) (proj2 H)
  end
with spine_ind' (sp : spine) : P (sp_head sp) /\ Forall (fun p => P (snd p)) (sp_items sp) :=
  match sp with
  | SOne t => conj (tree_ind' t) (Forall_nil _)
  | SMore sp o t =>
    let H := spine_ind' sp in
    conj (proj1 H) (proj2 (Forall_app _ _ _) (conj (proj2 H) (Forall_cons (o, t) (tree_ind' t) (Forall_nil _))))
  end.
End TreeInd.

Section Complete.
Variable tbl : operation.
Variable max_nesting : nat.
Variable input : list N.
Variable atom : nat -> bool * nat.
Variable op_rest : nat -> nat -> nat -> bool * nat.
Hypothesis Hok : table_ok tbl.
Hypothesis Hun : unambiguous tbl.
Hypothesis Hat : forall p n, atom p = (true, n) ->
  forall d, declared tbl d -> d_kind d = KPre -> absent input d p.

Notation reads := (reads tbl input atom op_rest).
Notation reads_sp := (reads_sp tbl input atom op_rest).
Notation op_text := (op_text tbl input op_rest).
Notation absent := (absent input).
Notation parse := (parse tbl max_nesting input atom op_rest).
Notation parse_lhs := (parse_lhs tbl max_nesting input atom op_rest).
Notation post_loop := (post_loop tbl max_nesting input atom op_rest).
Notation do_op := (do_op tbl max_nesting input atom op_rest).
Notation do_kind := (do_kind tbl max_nesting input atom op_rest).
Notation list_loop := (list_loop tbl max_nesting input atom op_rest).
Notation lb := (lb tbl). Notation rb := (rb tbl).
Notation follows := (follows tbl). Notation respb := (respb tbl). Notation respb_sp := (respb_sp tbl).
Notation closed_at := (closed_at tbl input). Notation stops := (stops tbl input).
Notation inv := (inv tbl input atom op_rest).

(** Operators of one operation only can be at a position. *)
Lemma match_unique d d' i j x y p : declared tbl d -> declared tbl d' ->
  is_pre (d_kind d) = is_pre (d_kind d') -> nth_error (d_lits d) i = Some x -> nth_error (d_lits d') j = Some y ->
  matches x (at_ input p) = true -> matches y (at_ input p) = true ->
  d = d' /\ (length (l_text x) = length (l_text y) -> i = j).
Proof. intros Hd Hd' Hk Hx Hy Mx My. exact (Hun d d' i j x y _ Hd Hd' Hk Hx Hy Mx My). Qed.
Definition longest (d : decl) (x : literal) (p : nat) : Prop :=
  forall y, In y (d_lits d) -> matches y (at_ input p) = true -> length (l_text y) <= length (l_text x).

Lemma finds l d i x p : (forall e, In e l -> exists d', declared tbl d' /\ e = entry_of d' /\ is_pre (d_kind d') = is_pre (d_kind d)) ->
  In (entry_of d) l -> declared tbl d -> nth_error (d_lits d) i = Some x -> matches x (at_ input p) = true ->
  longest d x p ->
  parse_operator l (at_ input p) = Some (entry_of d, i, length (l_text x)).
Proof.
  intros Hl Hin Hd Hx Hm Hlo. destruct (parse_operator l (at_ input p)) as [[[e j] n]|] eqn:Ep.
  - pose proof (parse_operator_longest _ _ _ _ _ Ep (entry_of d) x Hin (nth_error_In _ _ Hx) Hm) as L.
    apply parse_operator_some in Ep. destruct Ep as (He & y & Hy & My & ->).
    destruct (Hl _ He) as (d' & Hd' & -> & Hk). cbn [e_lits entry_of] in Hy.
    destruct (match_unique d d' i j x y p Hd Hd' (eq_sym Hk) Hx Hy Hm My) as (<- & E).
    pose proof (Hlo y (nth_error_In _ _ Hy) My) as L'. rewrite (E ltac:(lia)) in *. rewrite Hx in Hy. injection Hy as ->. reflexivity.
  - exfalso. rewrite parse_operator_none in Ep. rewrite (Ep _ x Hin) in Hm; [discriminate|].
    exact (nth_error_In _ _ Hx).
Qed.
Lemma finds_list pre min d i x p : declared tbl d -> is_pre (d_kind d) = pre ->
  min <= (if pre then right_power d else left_power d) ->
  nth_error (d_lits d) i = Some x -> matches x (at_ input p) = true -> longest d x p ->
  parse_operator (op_list pre min tbl 1) (at_ input p) = Some (entry_of d, i, length (l_text x)).
Proof.
  intros Hd Hk Hmin. apply finds; auto.
  - intros e He. apply op_list_in in He. destruct He as (d' & H1 & H2 & H3 & _). exists d'. repeat split; auto. congruence.
  - apply op_list_in. exists d. auto.
Qed.
Lemma finds_own d i x p : declared tbl d -> nth_error (d_lits d) i = Some x -> matches x (at_ input p) = true ->
  longest d x p ->
  parse_operator [entry_of d] (at_ input p) = Some (entry_of d, i, length (l_text x)).
Proof. intros Hd. apply finds; [|left; reflexivity|exact Hd]. intros e [<-|[]]. eauto. Qed.

(** The operator behind an operand closes it. *)
Lemma follows_closed o q : op_text o -> (exists k, kind_of tbl (o_id o) k /\ is_pre k = false) -> follows q (o_id o) ->
  closed_at (o_b o) q.
Proof.
  intros (d & x & Hd & Ei & Hx & Hm & _) (k & (dk & Hdk & Eik & <-) & Hk) (Hlt & Heq).
  assert (dk = d) by (apply (declared_id tbl Hok); congruence). subst dk.
  rewrite <- Ei in *. rewrite (lb_power tbl Hok d Hd) in Hlt.
  split.
  - intros d' Hd' Hk' L y Hy. destruct (matches y (skipn (o_b o) input)) eqn:My; [|reflexivity]. exfalso.
    apply In_nth_error in Hy. destruct Hy as (j & Hy).
    destruct (match_unique d d' _ j x y (o_b o) Hd Hd' ltac:(congruence) Hx Hy Hm My) as (<- & _). lia.
  - intros d' Hd' Ei' Hk' y Hy. destruct (matches y (skipn (o_b o) input)) eqn:My; [|reflexivity]. exfalso.
    apply In_nth_error in Hy. destruct Hy as (j & Hy).
    assert (Hpk : is_pre (d_kind d') = false) by (destruct Hk' as [-> | ->]; reflexivity).
    destruct (match_unique d d' _ j x y (o_b o) Hd Hd' ltac:(congruence) Hx Hy Hm My) as (<- & _).
    destruct (Heq (eq_sym Ei')) as (d2 & H2 & Ei2 & Ek2).
    assert (d2 = d) by (apply (declared_id tbl Hok); congruence). subst d2. destruct Hk'; congruence.
Qed.

(** ** Runs with some fuel *)
Definition runP min s ok s' := exists f, parse f min s = Done ok s'.
Definition runC min s ok s' := exists f, post_loop f min s = Done ok s'.
Definition runB min s ok s' := exists f, parse_lhs f min s = Done ok s'.
Definition runL e sp o s ok s' := exists f, list_loop f e sp o s = Done ok s'.
Definition runD e i b s ok s' := exists f, do_op f e i b s = Done ok s'.
Definition runBC min s ok s' := exists s0, runB min s true s0 /\ runC min s0 ok s'.

Variable g : nat.
Definition gs_ok (s : st) : Prop := grp s = 0 \/ grp s = g.
Definition g_ops (l : list nat) : Prop := Forall (fun id => bg (bp tbl id) = 0 \/ bg (bp tbl id) = g) l.
Definition after (s s1 : st) (n e : nat) : Prop :=
  pos s1 = e /\ gs_ok s1 /\ nest s1 = nest s + n /\ exists d, evs s1 = evs s ++ d /\ no_errors d.

Lemma after_refl s s1 : pos s1 = pos s -> grp s1 = grp s -> nest s1 = nest s -> evs s1 = evs s ->
  gs_ok s -> after s s1 0 (pos s).
Proof.
  intros H1 H2 H3 H4 H5. split; [exact H1|]. split; [unfold gs_ok in *; rewrite H2; exact H5|].
  split; [lia|]. exists []. rewrite app_nil_r. split; [exact H4|]. intros e [].
Qed.
Lemma after_trans s s1 s2 n m e e' : after s s1 n e -> after s1 s2 m e' -> after s s2 (n + m) e'.
Proof.
  intros (A1 & A2 & A3 & d & A4 & A5) (B1 & B2 & B3 & d' & B4 & B5).
  split; [exact B1|]. split; [exact B2|]. split; [lia|]. exists (d ++ d'). split; [rewrite B4, A4; now rewrite app_assoc|].
  apply no_errors_app. auto.
Qed.
Lemma after_emit s s1 n e x : after s s1 n e -> is_error x = false -> after s (emit x s1) n e.
Proof.
  intros (A1 & A2 & A3 & d & A4 & A5) Hx. split; [exact A1|]. split; [exact A2|]. split; [exact A3|].
  exists (d ++ [x]). cbn. split; [rewrite A4; now rewrite app_assoc|]. apply no_errors_app. split; [exact A5|].
  now apply no_errors_one.
Qed.
Lemma after_val s s1 n e v : after s s1 n e -> after s (set_val v s1) n e.
Proof. intros H. exact H. Qed.
Lemma emit_after s s1 n e x : after (emit x s) s1 n e -> is_error x = false -> after s s1 n e.
Proof.
  intros (A1 & A2 & A3 & d & A4 & A5) Hx. split; [exact A1|]. split; [exact A2|]. split; [exact A3|].
  exists ([x] ++ d). cbn in A4. split; [rewrite A4; now rewrite <- app_assoc|]. apply no_errors_app. split; [|exact A5].
  now apply no_errors_one.
Qed.

(** Parsing an operator. *)
Lemma enters d b s : gs_ok s -> bg (bp tbl (d_id d)) = 0 \/ bg (bp tbl (d_id d)) = g -> nest s < max_nesting ->
  exists s0, enter_op tbl max_nesting (entry_of d) b (pos s) s = (true, s0) /\ after s s0 1 (pos s) /\ val s0 = val s.
Proof.
  intros Hg Hd Hn. unfold enter_op. replace (max_nesting <=? nest s) with false by (symmetry; apply Nat.leb_gt; exact Hn).
  eexists. split; [reflexivity|]. cbn [e_id entry_of].
  destruct (bg (bp tbl (d_id d)) =? 0) eqn:E0.
  - split; [|reflexivity]. split; [reflexivity|]. split; [exact Hg|]. split; [cbn; lia|].
    exists []. rewrite app_nil_r. split; [reflexivity|]. intros e [].
  - assert (Eg : bg (bp tbl (d_id d)) = g) by (apply Nat.eqb_neq in E0; tauto). rewrite Eg in *. cbn [grp inc_nest].
    destruct (grp s =? 0) eqn:E1.
    + split; [|reflexivity]. split; [reflexivity|]. split; [right; reflexivity|]. split; [cbn; lia|].
      exists []. rewrite app_nil_r. split; [reflexivity|]. intros e [].
    + assert (E2 : grp s = g) by (apply Nat.eqb_neq in E1; destruct Hg; [contradiction|assumption]).
      rewrite E2, Nat.eqb_refl. cbn [negb]. split; [|reflexivity]. split; [reflexivity|]. split; [right; exact E2|].
      split; [cbn; lia|]. exists []. rewrite app_nil_r. split; [reflexivity|]. intros e [].
Qed.
Lemma finishes o d x s : declared tbl d -> d_id d = o_id o -> nth_error (d_lits d) (o_idx o) = Some x ->
  o_m o = o_b o + length (l_text x) -> (exists n, op_rest (o_id o) (o_idx o) (o_m o) = (true, n) /\ o_e o = o_m o + n) ->
  gs_ok s ->
  exists s1, op_finish op_rest (entry_of d) (o_idx o) (o_b o) (o_b o + length (l_text x)) s = (true, o, s1) /\
    after s s1 0 (o_e o) /\ val s1 = val s.
Proof.
  intros Hd Ei Hx Em (n & Er & Ee) Hg. rewrite <- Em. unfold op_finish. cbn [e_id entry_of]. rewrite Ei, Er.
  eexists. split; [rewrite <- Ee; destruct o; reflexivity|]. split; [|reflexivity].
  split; [cbn; congruence|]. split; [exact Hg|]. split; [cbn; lia|]. cbn. rewrite <- app_assoc. eexists. split; [reflexivity|].
  intros e [<-|[<-|[]]]; reflexivity.
Qed.

Lemma runP_of_BC min s s1 s2 : (op_list false min tbl 1 = [] -> runBC min s true s1) ->
  (op_list false min tbl 1 <> [] -> runBC min (emit (EStart (pos s)) s) true s2) ->
  exists s', (s' = s1 /\ op_list false min tbl 1 = [] \/ s' = emit (EFinish (pos s2)) s2) /\ runP min s true s'.
Proof.
  intros H1 H2. destruct (op_list false min tbl 1) as [|e0 l0] eqn:El.
  - destruct (H1 eq_refl) as (s0 & (f & E) & (f' & E')). exists s1. split; [auto|].
    exists (S f). rewrite parse_S, El. rewrite E. f_equal.
    destruct f' as [|f']; [discriminate|]. rewrite post_loop_S, El in E'. cbn in E'. now injection E'.
  - destruct (H2 ltac:(discriminate)) as (s0 & (f & E) & (f' & E')). exists (emit (EFinish (pos s2)) s2).
    split; [auto|]. exists (S (f + f')). rewrite parse_S, El.
    rewrite (lhs_mono _ _ _ _ _ f (f + f') _ _ _ _ ltac:(lia) E).
    rewrite (loop_mono _ _ _ _ _ f' (f + f') _ _ _ _ ltac:(lia) E'). reflexivity.
Qed.

(** What is shown for every tree. *)
Definition complete (t : tree) : Prop := forall min s e,
  inv min t (pos s) e -> gs_ok s -> g_ops (ops t) -> nest s + applications t <= max_nesting ->
  exists s1, after s s1 (applications t) e /\ val s1 = Some t /\
    forall ok s2, runC min s1 ok s2 -> runBC min s ok s2.

Lemma loop_stops min s : stops min (pos s) -> runC min s true s.
Proof. intros H. exists 1. rewrite post_loop_S. apply (stops_none tbl input) in H. now rewrite H. Qed.

Lemma complete_parse t min s e : complete t ->
  inv min t (pos s) e -> gs_ok s -> g_ops (ops t) -> nest s + applications t <= max_nesting -> stops min e ->
  exists s', runP min s true s' /\ after s s' (applications t) e /\ val s' = Some t.
Proof.
  intros Hc Hi Hg Hgo Hn Hs.
  destruct (Hc min s e Hi Hg Hgo Hn) as (s1 & A1 & V1 & K1).
  destruct (Hc min (emit (EStart (pos s)) s) e Hi Hg Hgo Hn) as (s2 & A2 & V2 & K2).
  assert (C1 : runC min s1 true s1) by (apply loop_stops; rewrite (proj1 A1); exact Hs).
  assert (C2 : runC min s2 true s2) by (apply loop_stops; rewrite (proj1 A2); exact Hs).
  destruct (runP_of_BC min s s1 s2 (fun _ => K1 _ _ C1) (fun _ => K2 _ _ C2)) as (s' & [(-> & _)| ->] & R).
  - exists s1. auto.
  - exists (emit (EFinish (pos s2)) s2). split; [exact R|]. split; [|exact V2].
    apply after_emit; [|reflexivity]. eapply emit_after; [exact A2|reflexivity].
Qed.

Lemma complete_leaf b e : complete (Leaf b e).
Proof.
  intros min s e' (H1 & _) Hg _ Hn. cbn in H1. destruct H1 as (<- & <- & n & Ea & ->).
  exists (set_val (Some (Leaf (pos s) (pos s + n))) (set_pos (pos s + n) (emit (EAtom (pos s) (pos s + n)) s))).
  split; [|split; [reflexivity|]].
  - split; [reflexivity|]. split; [exact Hg|]. split; [cbn; lia|]. exists [EAtom (pos s) (pos s + n)].
    split; [reflexivity|]. now apply no_errors_one.
  - intros ok s2 H. eexists. split; [|exact H]. exists 1. rewrite parse_lhs_S.
    replace (parse_operator (op_list true min tbl 1) (at_ input (pos s))) with (@None (entry * nat * nat)).
    + unfold parse_atom. now rewrite Ea.
    + symmetry. apply parse_operator_none. intros e x He Hx. apply op_list_in in He.
      destruct He as (d & Hd & -> & Hk & _). apply (Hat _ _ Ea d Hd); [|exact Hx].
      destruct (d_kind d); try discriminate. reflexivity.
Qed.

Lemma g_ops_app a b : g_ops (a ++ b) <-> g_ops a /\ g_ops b.
Proof. apply Forall_app. Qed.

(** From the position behind an operand, an operator and what [do_kind] does. *)
Lemma op_step o s : op_text o -> gs_ok s -> bg (bp tbl (o_id o)) = 0 \/ bg (bp tbl (o_id o)) = g ->
  nest s < max_nesting ->
  exists d x s1, declared tbl d /\ d_id d = o_id o /\ nth_error (d_lits d) (o_idx o) = Some x /\
    matches x (at_ input (o_b o)) = true /\ longest d x (o_b o) /\
    after (set_pos (o_b o + length (l_text x)) s) s1 1 (o_e o) /\ val s1 = val s /\
    forall f, do_op (S f) (entry_of d) (o_idx o) (o_b o) (set_pos (o_b o + length (l_text x)) s) = do_kind f (entry_of d) o s1.
Proof.
  intros (d & x & Hd & Ei & Hx & Hm & Hlo & Em & Er) Hg Hb Hn. rewrite <- Ei in Hb.
  destruct (enters d (o_b o) (set_pos (o_b o + length (l_text x)) s) Hg Hb Hn) as (s0 & E0 & A0 & V0).
  destruct (finishes o d x s0 Hd Ei Hx Em Er ltac:(apply A0)) as (s1 & E1 & A1 & V1).
  exists d, x, s1. split; [exact Hd|]. split; [exact Ei|]. split; [exact Hx|]. split; [exact Hm|]. split; [exact Hlo|].
  split; [exact (after_trans _ _ _ _ _ _ _ A0 A1)|]. split; [rewrite V1, V0; reflexivity|].
  intros f. rewrite do_op_S, E0. destruct A0 as (-> & _). cbn [pos set_pos]. rewrite E1. reflexivity.
Qed.

Lemma after_set_pos p s s1 n e : after (set_pos p s) s1 n e -> after s s1 n e.
Proof. intros H. exact H. Qed.

Lemma complete_pre o t : complete t -> complete (Pre o t).
Proof.
  intros IH min s e Hi Hg Hgo Hn.
  destruct Hi as (R & (Hk & B1 & B2 & B3) & _ & L2 & C).
  cbn in R. destruct R as (Eb & Ho & Rt). cbn [ops] in Hgo. apply (proj1 (Forall_cons_iff _ _ _)) in Hgo as (Hgo & Hgt).
  cbn [left_prefix] in L2. apply (proj1 (Forall_cons_iff _ _ _)) in L2 as (Hmin & _).
  cbn [right_edge] in C. apply (proj1 (Forall_cons_iff _ _ _)) in C as (C0 & C1). cbn [applications] in *.
  destruct (op_step o (emit (EStart (pos s)) s) Ho Hg Hgo ltac:(cbn [nest emit]; lia))
    as (d & x & s1 & Hd & Ei & Hx & Hm & Hlo & A1 & V1 & K1).
  destruct Hk as (dk & Hdk & Eik & Ek). assert (dk = d) by (apply (declared_id tbl Hok); congruence). subst dk.
  destruct (complete_parse t (rb (o_id o)) s1 e IH) as (s2 & (f & E2) & A2 & V2).
  { rewrite (proj1 A1). repeat split; auto. } { apply A1. } { exact Hgt. }
  { destruct A1 as (_ & _ & -> & _). cbn [nest emit set_pos]. lia. } { exact (proj1 C0). }
  set (s3 := emit (EFinish (pos s2)) (emit (EOp (o_id o) (pos s2)) (set_val (Some (Pre o t)) s2))).
  exists s3. split; [|split; [reflexivity|]].
  - apply after_emit; [|reflexivity]. apply after_emit; [|reflexivity]. apply after_val.
    apply (emit_after _ _ _ _ (EStart (pos s))); [|reflexivity]. apply (after_set_pos (o_b o + length (l_text x))).
    exact (after_trans _ _ _ _ _ _ _ A1 A2).
  - intros ok s4 H. exists s3. split; [|exact H]. exists (S (S f)). rewrite parse_lhs_S.
    rewrite Eb in K1, Hm, Hlo. rewrite (finds_list true min d (o_idx o) x (pos s) Hd); auto.
    + rewrite K1. unfold ExprProofs.do_kind. cbn [e_kind e_id entry_of]. rewrite Ek.
      rewrite Ei. fold (rb (o_id o)). rewrite E2, V2. cbv zeta. reflexivity.
    + now rewrite Ek.
    + rewrite <- (rb_power tbl Hok d Hd). congruence.
Qed.

Lemma complete_post t o : complete t -> complete (Post t o).
Proof.
  intros IH min s e Hi Hg Hgo Hn.
  destruct Hi as (R & (Hk & B1 & B2) & L1 & L2 & C).
  cbn in R. destruct R as (Rt & Ho & Ee). cbn [ops] in Hgo. apply g_ops_app in Hgo as (Hgt & Hgo).
  apply (proj1 (Forall_cons_iff _ _ _)) in Hgo as (Hgo & _).
  cbn [left_edge] in L1. apply (proj1 (Forall_cons_iff _ _ _)) in L1 as (Hmin & L1). cbn [applications] in *.
  destruct (IH min s (o_b o)) as (s1 & A1 & V1 & K1); auto.
  { repeat split; auto. eapply Forall_impl; [|exact B2]. intros q Hq. apply follows_closed; [exact Ho|exists KPost; auto|exact Hq]. }
  { lia. }
  destruct (op_step o s1 Ho ltac:(apply A1) Hgo ltac:(destruct A1 as (_ & _ & -> & _); lia))
    as (d & x & s2 & Hd & Ei & Hx & Hm & Hlo & A2 & V2 & K2).
  destruct Hk as (dk & Hdk & Eik & Ek). assert (dk = d) by (apply (declared_id tbl Hok); congruence). subst dk.
  set (s3 := emit (EOp (o_id o) (pos s2)) (set_val (Some (Post t o)) s2)).
  exists s3. split; [|split; [reflexivity|]].
  - apply after_emit; [|reflexivity]. apply after_val. rewrite <- Ee.
    replace (S (applications t)) with (applications t + 1) by lia.
    eapply after_trans; [exact A1|]. exact A2.
  - intros ok s4 (f & H). apply K1. exists (S (S f)). rewrite post_loop_S.
    destruct A1 as (E1 & _). rewrite E1. rewrite (finds_list false min d (o_idx o) x (o_b o) Hd); auto.
    + rewrite K2. unfold ExprProofs.do_kind. cbn [e_kind e_id entry_of]. rewrite Ek, V2, V1. cbv zeta. rewrite Ei. fold s3.
      exact (loop_mono _ _ _ _ _ f (S f) _ _ _ _ ltac:(lia) H).
    + now rewrite Ek.
    + rewrite <- (lb_power tbl Hok d Hd). congruence.
Qed.

Lemma complete_inf l o r : complete l -> complete r -> complete (Inf l o r).
Proof.
  intros IHl IHr min s e Hi Hg Hgo Hn.
  destruct Hi as (R & (Hk & B1 & B2 & B3 & B4 & B5) & L1 & L2 & C).
  cbn in R. destruct R as (Rl & Ho & Rr). cbn [ops] in Hgo. apply g_ops_app in Hgo as (Hgl & Hgo).
  apply (proj1 (Forall_cons_iff _ _ _)) in Hgo as (Hgo & Hgr).
  cbn [left_edge] in L1. apply (proj1 (Forall_cons_iff _ _ _)) in L1 as (Hmin & L1). cbn [applications left_prefix] in *.
  cbn [right_edge] in C. apply (proj1 (Forall_cons_iff _ _ _)) in C as (C0 & C1).
  assert (Hk' : exists k, kind_of tbl (o_id o) k /\ is_pre k = false).
  { destruct Hk as [H|[H|H]]; eexists; split; try exact H; reflexivity. }
  destruct (IHl min s (o_b o)) as (s1 & A1 & V1 & K1); auto.
  { repeat split; auto. eapply Forall_impl; [|exact B3]. intros q Hq. now apply follows_closed. }
  { lia. }
  destruct (op_step o s1 Ho ltac:(apply A1) Hgo ltac:(destruct A1 as (_ & _ & -> & _); lia))
    as (d & x & s2 & Hd & Ei & Hx & Hm & Hlo & A2 & V2 & K2).
  destruct (complete_parse r (rb (o_id o)) (set_val None s2) e IHr) as (s3 & (f & E3) & A3 & V3).
  { cbn [pos set_val]. rewrite (proj1 A2). repeat split; auto. } { apply A2. } { exact Hgr. }
  { destruct A2 as (_ & _ & E & _). cbn [nest set_val set_pos] in *. rewrite E. destruct A1 as (_ & _ & -> & _). lia. } { exact (proj1 C0). }
  set (s4 := emit (EOp (o_id o) (pos s3)) (set_val (Some (Inf l o r)) s3)).
  exists s4. split; [|split; [reflexivity|]].
  - apply after_emit; [|reflexivity]. apply after_val.
    replace (S (applications l + applications r)) with (applications l + (1 + applications r)) by lia.
    eapply after_trans; [exact A1|]. apply (after_set_pos (o_b o + length (l_text x))).
    eapply after_trans; [exact A2|]. exact A3.
  - intros ok s5 (f' & H). apply K1. exists (S (S (f + f'))). rewrite post_loop_S.
    destruct A1 as (E1 & _). rewrite E1. rewrite (finds_list false min d (o_idx o) x (o_b o) Hd); auto.
    + rewrite K2. unfold ExprProofs.do_kind. cbn [e_kind e_id entry_of]. rewrite V2, V1. cbv zeta. rewrite Ei. fold (rb (o_id o)).
      rewrite (parse_mono _ _ _ _ _ f (f + f') _ _ _ _ ltac:(lia) E3), V3.
      assert (E5 : forall s', s' = set_val (Some (Inf l o r)) s3 -> post_loop (S (f + f')) min (emit (EOp (o_id o) (pos s')) s') = Done ok s5).
      { intros s' ->. exact (loop_mono _ _ _ _ _ f' (S (f + f')) _ _ _ _ ltac:(lia) H). }
      assert (Hkd : d_kind d = ILeft \/ d_kind d = IRight \/ d_kind d = ISingle).
      { destruct Hk as [Hk|[Hk|Hk]]; destruct Hk as (dk & Hdk & Eik & Ek);
          assert (dk = d) by (apply (declared_id tbl Hok); congruence); subst dk; auto. }
      destruct Hkd as [Ek|[Ek|Ek]]; rewrite Ek; try (apply E5; reflexivity).
      apply E5. cbn [pos set_val]. destruct A3 as (-> & _).
      replace (parse_operator [entry_of d] (at_ input e)) with (@None (entry * nat * nat)); [reflexivity|].
      symmetry. apply own_none. apply (proj2 C0 d Hd Ei). auto.
    + destruct Hk' as (k & (dk & Hdk & Eik & Ek) & Hp).
      assert (dk = d) by (apply (declared_id tbl Hok); congruence). subst dk. now rewrite Ek.
    + rewrite <- (lb_power tbl Hok d Hd). congruence.
Qed.

(** ** Lists *)
(** The list loop behind an operand. *)
Definition listk (f : nat) (e : entry) (sp : spine) (s : st) : res :=
  match parse_operator [e] (at_ input (pos s)) with
  | None => Done true (set_val (Some (Lst sp None)) s)
  | Some (_, idx, n) =>
    match op_finish op_rest e idx (pos s) (pos s + n) s with
    | (false, _, s2) => Done false (set_val (Some (Lst sp None)) s2)
    | (true, o2, s2) => list_loop f e sp o2 s2
    end
  end.
Lemma list_loop_k f e sp o s : list_loop (S f) e sp o s =
  match parse f (br (bp tbl (e_id e))) s with
  | Done false s1 => Done false (set_val (Some (Lst sp (Some o))) s1)
  | Done true s1 => match val s1 with None => UB | Some v => listk f e (SMore sp o v) (set_val None s1) end
  | r => r
  end.
Proof. reflexivity. Qed.
Lemma listk_mono f f' e sp s ok s' : f <= f' -> listk f e sp s = Done ok s' -> listk f' e sp s = Done ok s'.
Proof.
  intros L. unfold listk. destruct (parse_operator _ _) as [[[? idx] n]|]; [|auto].
  destruct (op_finish _ _ _ _ _ _) as [[[|] o2] s2]; [|auto]. now apply list_mono.
Qed.

Lemma stops_before o q : op_text o -> (exists k, kind_of tbl (o_id o) k /\ is_pre k = false) ->
  lb (o_id o) < rb q -> stops (rb q) (o_b o).
Proof.
  intros (d & x & Hd & Ei & Hx & Hm & _) (k & (dk & Hdk & Eik & <-) & Hk) Hlt.
  assert (dk = d) by (apply (declared_id tbl Hok); congruence). subst dk.
  rewrite <- Ei in *. rewrite (lb_power tbl Hok d Hd) in Hlt.
  intros d' Hd' Hk' L y Hy. destruct (matches y (skipn (o_b o) input)) eqn:My; [|reflexivity]. exfalso.
  apply In_nth_error in Hy. destruct Hy as (j & Hy).
  destruct (match_unique d d' _ j x y (o_b o) Hd Hd' ltac:(congruence) Hx Hy Hm My) as (<- & _). lia.
Qed.

Definition last_op (sp : spine) (id : nat) : Prop := exists sp' o t, sp = SMore sp' o t /\ o_id o = id.

Lemma complete_spine d : declared tbl d -> d_kind d = IList ->
  forall sp, complete (sp_head sp) -> Forall (fun p => complete (snd p)) (sp_items sp) ->
  last_op sp (d_id d) ->
  forall min s e, reads_sp sp (pos s) e -> respb_sp sp ->
  Forall (fun q => min <= lb q) (left_edge_sp sp) -> Forall (fun q => min <= rb q) (left_prefix_sp sp) ->
  Forall (closed_at e) (right_edge (last_operand sp)) -> stops (rb (d_id d)) e ->
  gs_ok s -> g_ops (ops_sp sp) -> nest s + S (applications_sp sp) <= max_nesting ->
  exists s1, after s s1 (S (applications_sp sp)) e /\
    forall f0 s2, listk f0 (entry_of d) sp (set_val None s1) = Done true s2 ->
    forall ok s3, runC min (emit (EOp (d_id d) (pos s2)) s2) ok s3 -> runBC min s ok s3.
Proof.
  intros Hd Hk. assert (Hkk : kind_of tbl (d_id d) IList) by (exists d; auto).
  induction sp as [t|sp IH o t]; intros Hh Hit Hlast; [destruct Hlast as (? & ? & ? & E & _); discriminate|].
  cbn [sp_head sp_items] in *. apply Forall_app in Hit. destruct Hit as (Hit & Ht).
  apply Forall_inv in Ht. cbn [snd] in Ht.
  destruct Hlast as (sp' & o' & t' & E & Eo). injection E as <- <- <-.
  intros min s e (R1 & Ho & Rt) (B1 & B2 & B3 & B4 & B5 & B6) L1 L2 C Hs Hg Hgo Hn.
  change (respb_sp sp) in B1. change (respb t) in B2.
  cbn [ops_sp] in Hgo. apply g_ops_app in Hgo as (Hgs & Hgo). apply (proj1 (Forall_cons_iff _ _ _)) in Hgo as (Hgo & Hgt).
  cbn [left_edge_sp] in L1. apply (proj1 (Forall_cons_iff _ _ _)) in L1 as (Hmin & L1).
  cbn [left_prefix_sp last_operand applications_sp] in *.
  assert (Hk' : exists k, kind_of tbl (o_id o) k /\ is_pre k = false).
  { exists IList. rewrite Eo. auto. }
  assert (Cl : Forall (closed_at (o_b o)) (right_edge (last_operand sp))).
  { eapply Forall_impl; [|exact B4]. intros q Hq. now apply follows_closed. }
  destruct B3 as (x & [->|(sp0 & o0 & -> & E0)]).
  - (* the first operator *)
    cbn [sp_head reads_sp respb_sp left_edge_sp left_prefix_sp ops_sp applications_sp last_operand] in *.
    destruct (Hh min s (o_b o)) as (s1 & A1 & V1 & K1); auto.
    { repeat split; auto. } { lia. }
    destruct (op_step o s1 Ho ltac:(apply A1) Hgo ltac:(destruct A1 as (_ & _ & -> & _); lia))
      as (d' & l & s2 & Hd' & Ei & Hx & Hm & Hlo & A2 & V2 & K2).
    assert (d' = d) by (apply (declared_id tbl Hok); congruence). subst d'.
    set (n0 := nest s2).
    assert (Hn2 : nest (set_val None s2) + applications t <= max_nesting).
    { cbn [nest set_val]. destruct A2 as (_ & _ & E2 & _). cbn [nest set_pos] in E2. rewrite E2.
      destruct A1 as (_ & _ & -> & _). lia. }
    assert (Hp2 : pos (set_val None s2) = o_e o) by apply A2.
    destruct (complete_parse t (rb (o_id o)) (set_val None s2) e Ht) as (s3 & (f & E3) & A3 & V3).
    { rewrite Hp2. repeat split; auto. } { apply A2. } { exact Hgt. } { exact Hn2. } { rewrite Eo. exact Hs. }
    exists s3. split.
    { replace (S (applications x + applications t)) with (applications x + (1 + applications t)) by lia.
      eapply after_trans; [exact A1|]. apply (after_set_pos (o_b o + length (l_text l))).
      eapply after_trans; [exact A2|]. exact A3. }
    intros f0 s4 H ok s5 (f1 & H1). apply K1. exists (S (S (S (f + f0 + f1)))). rewrite post_loop_S.
    destruct A1 as (E1 & _). rewrite E1. rewrite (finds_list false min d (o_idx o) l (o_b o) Hd); auto.
    + rewrite K2. unfold ExprProofs.do_kind. cbn [e_kind e_id entry_of]. rewrite Hk, V2, V1. cbv zeta.
      rewrite list_loop_k. cbn [e_id entry_of]. rewrite <- Eo. fold (rb (o_id o)).
      rewrite (parse_mono _ _ _ _ _ f (f + f0 + f1) _ _ _ _ ltac:(lia) E3), V3.
      rewrite (listk_mono f0 (f + f0 + f1) _ _ _ _ _ ltac:(lia) H). rewrite Eo.
      exact (loop_mono _ _ _ _ _ f1 (S (S (f + f0 + f1))) _ _ _ _ ltac:(lia) H1).
    + now rewrite Hk.
    + rewrite <- (lb_power tbl Hok d Hd). congruence.
  - (* a further operator *)
    destruct (IH Hh Hit) with (min := min) (s := s) (e := o_b o) as (s1 & A1 & K1); auto.
    { exists sp0, o0, x. split; [reflexivity|congruence]. }
    { rewrite <- Eo. apply stops_before; auto. rewrite Eo. rewrite (lb_power tbl Hok d Hd), (rb_power tbl Hok d Hd).
      unfold left_power, right_power. rewrite Hk. cbn. lia. }
    { lia. }
    destruct Ho as (d' & l & Hd' & Ei & Hx & Hm & Hlo & Em & Er).
    assert (d' = d) by (apply (declared_id tbl Hok); congruence). subst d'.
    destruct (finishes o d l (set_val None s1) Hd Ei Hx Em Er ltac:(apply A1)) as (s2 & E2 & A2 & V2).
    assert (Hn2 : nest s2 + applications t <= max_nesting).
    { destruct A2 as (_ & _ & E3 & _). cbn [nest set_val] in E3. rewrite E3. destruct A1 as (_ & _ & -> & _). lia. }
    destruct (complete_parse t (rb (o_id o)) s2 e Ht) as (s3 & (f & E3) & A3 & V3).
    { rewrite (proj1 A2). repeat split; auto. } { apply A2. } { exact Hgt. } { exact Hn2. } { rewrite Eo. exact Hs. }
    exists s3. split.
    { replace (S (applications_sp (SMore sp0 o0 x) + applications t)) with
        (S (applications_sp (SMore sp0 o0 x)) + (0 + applications t)) by lia.
      eapply after_trans; [exact A1|]. eapply after_trans; [exact A2|]. exact A3. }
    intros f0 s4 H ok s5 H1. eapply (K1 (S (f + f0)) s4); [|exact H1].
    unfold listk. cbn [pos set_val]. destruct A1 as (E1 & _). rewrite E1.
    rewrite (finds_own d (o_idx o) l (o_b o) Hd Hx Hm Hlo). rewrite E2.
    rewrite list_loop_k. cbn [e_id entry_of]. rewrite <- Eo. fold (rb (o_id o)).
    rewrite (parse_mono _ _ _ _ _ f (f + f0) _ _ _ _ ltac:(lia) E3), V3.
    exact (listk_mono f0 (f + f0) _ _ _ _ _ ltac:(lia) H).
Qed.

Lemma complete_lst sp dangling : complete (sp_head sp) -> Forall (fun p => complete (snd p)) (sp_items sp) ->
  complete (Lst sp dangling).
Proof.
  intros Hh Hit min s e (R & B & L1 & L2 & C) Hg Hgo Hn.
  destruct R as (_ & R). destruct B as (-> & (sp' & o & v & E & Hk) & B).
  change (reads_sp sp (pos s) e) in R. change (respb_sp sp) in B. cbn [ops left_edge left_prefix applications] in *.
  destruct Hk as (d & Hd & Ei & Hk).
  assert (C' : closed_at e (o_id o) /\ Forall (closed_at e) (right_edge (last_operand sp))).
  { rewrite E in *. cbn [right_edge last_operand] in *. apply (proj1 (Forall_cons_iff _ _ _)) in C. exact C. }
  destruct C' as (C0 & C1).
  destruct (complete_spine d Hd Hk sp Hh Hit) with (min := min) (s := s) (e := e) as (s1 & A1 & K1); auto.
  { exists sp', o, v. auto. } { rewrite Ei. exact (proj1 C0). }
  exists (emit (EOp (d_id d) e) (set_val (Some (Lst sp None)) s1)).
  split; [|split; [reflexivity|]].
  - apply after_emit; [|reflexivity]. exact A1.
  - intros ok s2 H. apply (K1 0 (set_val (Some (Lst sp None)) (set_val None s1))).
    + unfold listk. cbn [pos set_val]. destruct A1 as (-> & _).
      replace (parse_operator [entry_of d] (at_ input e)) with (@None (entry * nat * nat)); [reflexivity|].
      symmetry. apply own_none. apply (proj2 C0 d Hd Ei). auto.
    + cbn [pos set_val]. destruct A1 as (E1 & _). rewrite E1. exact H.
Qed.

Lemma complete_all : forall t, complete t.
Proof.
  induction t using tree_ind'; auto using complete_leaf, complete_pre, complete_post, complete_inf, complete_lst.
Qed.
End Complete.
