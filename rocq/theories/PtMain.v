(** Whole trees: what the functions of parse_tree and lexy_ext return for a finished tree. *)
From Verif Require Import Prelude RuleModel RuleSpec RuleMain PtModel PtSpec PtMem PtProofs PtNav PtWalk PtExtModel PtActModel PtActSpec PtAct.
Close Scope N_scope.

(** Induction over labelled trees. *)
Lemma ltree_rec (P : ltree -> Prop) : (forall a k b e, P (LT a k b e)) ->
  (forall a id tok kids, (forall k, In k kids -> P k) -> P (LP a id tok kids)) -> forall t, P t.
Proof.
  intros H1 H2. apply ltree_ind'; auto. intros a id tok kids H. apply H2. now apply Forall_forall.
Qed.

(** ** Sizes *)
Lemma list_sum_in x l : In x l -> x <= list_sum l.
Proof. induction l as [|y l IH]; intros []; cbn; subst; fold (list_sum l) in *; [lia|]. specialize (IH H). lia. Qed.
Lemma nodes_pos t : 0 < nodes t.
Proof. destruct t; cbn; lia. Qed.
Lemma length_nodes l : length l <= list_sum (map nodes l).
Proof. induction l as [|x l IH]; cbn; auto. fold (list_sum (map nodes l)). pose proof (nodes_pos x). lia. Qed.
Lemma kids_nodes a id tok kids : length kids < nodes (erase (LP a id tok kids)).
Proof. cbn [erase nodes]. pose proof (length_nodes (map erase kids)). rewrite map_length in H. lia. Qed.
Lemma sub_nodes t s : Sub t s -> nodes (erase s) <= nodes (erase t).
Proof.
  induction 1 as [|a id tok kids k s Hk _ IH]; [lia|]. cbn [erase nodes].
  pose proof (list_sum_in (nodes (erase k)) (map nodes (map erase kids))). rewrite map_map in *.
  enough (nodes (erase k) <= list_sum (map (fun x => nodes (erase x)) kids)) by lia. apply H.
  apply in_map_iff. eauto.
Qed.
Lemma height_nodes t : height t < nodes t.
Proof.
  revert t. fix IH 1. intros [k b e|id tok kids]; cbn [height nodes]; [lia|].
  enough (list_max (map (fun t => S (height t)) kids) <= list_sum (map nodes kids)) by lia.
  induction kids as [|x kids IHk]; cbn [map]; [cbn; lia|].
  change (list_max (S (height x) :: map (fun t => S (height t)) kids)) with (Nat.max (S (height x)) (list_max (map (fun t => S (height t)) kids))).
  change (list_sum (nodes x :: map nodes kids)) with (nodes x + list_sum (map nodes kids)).
  specialize (IH x). lia.
Qed.
Lemma length_flat_map {A B} (f : A -> list B) l : length (flat_map f l) = list_sum (map (fun x => length (f x)) l).
Proof. induction l as [|x l IH]; cbn; auto. now rewrite app_length, IH. Qed.
Lemma tevents_nodes s : length (tevents s) <= 2 * nodes (erase s).
Proof.
  revert s. refine (ltree_rec _ _ _).
  - intros. cbn. lia.
  - intros a id tok kids IH. cbn [tevents erase nodes length]. rewrite app_length, length_flat_map. cbn [length].
    enough (list_sum (map (fun x => length (tevents x)) kids) <= 2 * list_sum (map nodes (map erase kids))) by lia.
    induction kids as [|x kids IHk]; cbn [map]; [cbn; lia|].
    change (list_sum (length (tevents x) :: map (fun x => length (tevents x)) kids)) with (length (tevents x) + list_sum (map (fun x => length (tevents x)) kids)).
    change (list_sum (nodes (erase x) :: map nodes (map erase kids))) with (nodes (erase x) + list_sum (map nodes (map erase kids))).
    pose proof (IH x (or_introl eq_refl)). assert (forall k, In k kids -> length (tevents k) <= 2 * nodes (erase k)) by (intros; apply IH; now right).
    specialize (IHk H0). lia.
Qed.

(** ** Handles *)
Definition entering (x : titer) : bool := match fst x with Exit => false | _ => true end.
Definition entered (s : ltree) : list addr := map snd (filter entering (tevents s)).
Lemma entered_lp a id tok kids : entered (LP a id tok kids) = a :: flat_map entered kids.
Proof.
  unfold entered. cbn [tevents filter entering fst map snd]. f_equal. rewrite filter_app. cbn [filter entering fst]. rewrite app_nil_r.
  induction kids as [|x kids IH]; [reflexivity|]. cbn [flat_map]. rewrite filter_app, map_app. f_equal. exact IH.
Qed.
Lemma entered_fp s : incl (entered s) (fp s).
Proof.
  intros w H. unfold entered in H. apply in_map_iff in H. destruct H as (x & <- & H). apply filter_In in H. now apply tevents_addr.
Qed.
Lemma entered_nodup s : NoDup (fp s) -> NoDup (entered s).
Proof.
  revert s. refine (ltree_rec _ _ _).
  - intros. cbn. constructor; [intros []|constructor].
  - intros a id tok kids IH H. rewrite entered_lp. apply kids_nodup in H. destruct H as (H1 & H2).
    assert (Hi : incl (flat_map entered kids) (fps kids)).
    { intros w Hw. apply in_flat_map in Hw. destruct Hw as (k & Hk & Hw). apply (fps_in k); auto. now apply entered_fp. }
    constructor; [auto|]. clear H2 Hi. revert IH H1. induction kids as [|x kids IHk]; intros IH H1; cbn; [constructor|].
    cbn [fps flat_map] in H1. apply NoDup_app_inv in H1. destruct H1 as (Ha & Hb & Hc). apply NoDup_app_intro.
    + apply IH; [now left|exact Ha].
    + apply IHk; [intros; apply IH; auto; now right|exact Hb].
    + intros w Hw Hw2. apply entered_fp in Hw. apply in_flat_map in Hw2. destruct Hw2 as (k & Hk & Hw2). apply entered_fp in Hw2.
      apply (Hc w Hw). apply (fps_in k); auto.
Qed.

Lemma entered_handles s : entered s = handles s.
Proof.
  revert s. refine (ltree_rec _ _ _); [reflexivity|]. intros a id tok kids IH. rewrite entered_lp. cbn [handles]. f_equal.
  induction kids as [|x kids IHk]; [reflexivity|]. cbn [flat_map]. rewrite IH by now left. f_equal. apply IHk. intros; apply IH; now right.
Qed.

Section Whole.
Variables (m : memory) (lt : ltree) (eof : addr) (bp ep : nat).
Hypothesis HW : Whole m lt eof bp ep.

Lemma type_leaf a k b e : Sub lt (LT a k b e) -> kind_is_token m a = true /\ kind_is_production m a = false /\
  token_kind m a = Some k /\ lexeme m a = Some (Some (b, e)).
Proof.
  intros H. destruct (node_rep m lt eof bp ep HW _ H) as (H1 & H2 & H3 & H4).
  unfold kind_is_token, is_token, kind_is_production, token_kind, lexeme, token_begin, token_end.
  rewrite H1, H2, H3. repeat split. f_equal. f_equal. f_equal. lia.
Qed.
Lemma type_prod a id tok kids : Sub lt (LP a id tok kids) -> kind_is_token m a = false /\ kind_is_production m a = true /\
  production_id m a = Some id /\ kind_is_token_production m a = tok /\ lexeme m a = Some None.
Proof.
  intros H. pose proof (node_rep m lt eof bp ep HW _ H) as Hr. apply rep_prod in Hr. destruct Hr as (H1 & H2 & H3 & _).
  unfold kind_is_token, is_token, kind_is_token_production, kind_is_production, production_id, lexeme.
  rewrite H1, H2, H3. auto.
Qed.

Lemma show_ok s : Sub lt s -> map (show m) (tevents s) = map Some (preorder (erase s)).
Proof.
  revert s. refine (ltree_rec _ _ _).
  - intros a k b e H. destruct (type_leaf _ _ _ _ H) as (H1 & H2 & H3 & H4). cbn [tevents map erase preorder].
    unfold show. cbn [fst snd]. now rewrite H1, H2, H3, H4.
  - intros a id tok kids IH H. destruct (type_prod _ _ _ _ H) as (H1 & H2 & H3 & H4 & H5).
    cbn [tevents map erase preorder]. rewrite !map_app. cbn [map].
    assert (He : show m (Enter, a) = Some (SEnter id tok)) by (unfold show; cbn [fst snd]; now rewrite H1, H2, H3, H4).
    assert (Hx : show m (Exit, a) = Some (SExit id tok)) by (unfold show; cbn [fst snd]; now rewrite H1, H2, H3, H4).
    rewrite He, Hx. f_equal. f_equal.
    assert (Hs : forall k, In k kids -> map (show m) (tevents k) = map Some (preorder (erase k))).
    { intros k Hk. apply IH; auto. eapply Sub_child; eauto. }
    clear - Hs. induction kids as [|x kids IHk]; cbn; auto. rewrite !map_app, Hs, IHk; auto; [|now left]. intros; apply Hs; now right.
Qed.

(** Kinds of nodes. *)
Lemma kind_token_ok s k : Sub lt s -> kind_eq_token m (la s) k = Some (token_is k (erase s)).
Proof.
  intros H. unfold kind_eq_token. destruct s as [a k' b e|a id tok kids]; cbn [la erase token_is].
  - destruct (type_leaf _ _ _ _ H) as (H1 & _ & H3 & _). now rewrite H1, H3.
  - destruct (type_prod _ _ _ _ H) as (H1 & _). now rewrite H1.
Qed.
Lemma kind_production_ok s id : Sub lt s -> kind_eq_production m (la s) id = Some (production_is id (erase s)).
Proof.
  intros H. unfold kind_eq_production. destruct s as [a k' b e|a id' tok kids]; cbn [la erase production_is].
  - destruct (type_leaf _ _ _ _ H) as (_ & H2 & _). now rewrite H2.
  - destruct (type_prod _ _ _ _ H) as (_ & H2 & H3 & _). now rewrite H2, H3.
Qed.
Definition both (s u : ltree) : bool :=
  match s, u with LT _ _ _ _, LT _ _ _ _ | LP _ _ _ _, LP _ _ _ _ => true | _, _ => false end.
Lemma kind_eq_ok s u : Sub lt s -> Sub lt u ->
  kind_eq m (la s) (la u) = if both s u then Some (same_kind (erase s) (erase u)) else None.
Proof.
  intros H H'. unfold kind_eq, as_production. destruct s as [a k b e|a id tok kids], u as [a' k' b' e'|a' id' tok' kids']; cbn [la both erase same_kind].
  - destruct (type_leaf _ _ _ _ H) as (H1 & H2 & H3 & _), (type_leaf _ _ _ _ H') as (H1' & H2' & H3' & _).
    now rewrite H1, H1', H3, H3'.
  - destruct (type_leaf _ _ _ _ H) as (H1 & H2 & H3 & _), (type_prod _ _ _ _ H') as (H1' & H2' & H3' & _).
    now rewrite H1, H1', H2.
  - destruct (type_prod _ _ _ _ H) as (H1 & H2 & H3 & _), (type_leaf _ _ _ _ H') as (H1' & H2' & H3' & _).
    now rewrite H1, H2, H2'.
  - destruct (type_prod _ _ _ _ H) as (H1 & H2 & H3 & _), (type_prod _ _ _ _ H') as (H1' & H2' & H3' & _).
    now rewrite H1, H2, H2', H3, H3'.
Qed.

(** ** lexy_ext *)
Lemma advance_visit {A} (pred : A -> bool) l : forall fuel, length l <= fuel -> visit pred fuel (advance pred l) = filter pred l.
Proof.
  induction l as [|x l IH]; intros fuel Hf; cbn [advance filter].
  - now destruct fuel.
  - cbn [length] in Hf. destruct (pred x).
    + destruct fuel as [|fuel]; [lia|]. cbn [visit]. f_equal. apply IH. lia.
    + apply IH. lia.
Qed.
Lemma range_filter {A} (pred : A -> bool) l : range pred l = filter pred l.
Proof. apply advance_visit. auto. Qed.

Lemma toks_leaves s : map snd (toks s) = leaves (erase s).
Proof.
  revert s. refine (ltree_rec _ _ _); [reflexivity|]. intros a id tok kids IH. cbn [toks erase leaves].
  induction kids as [|x kids IHk]; cbn; auto. rewrite map_app, IH by now left. f_equal. apply IHk. intros; apply IH; now right.
Qed.
Lemma toks_tevents s : map snd (filter is_leaf (tevents s)) = map fst (toks s).
Proof.
  revert s. refine (ltree_rec _ _ _); [reflexivity|]. intros a id tok kids IH. cbn [toks tevents filter is_leaf fst].
  rewrite filter_app. cbn [filter is_leaf fst]. rewrite app_nil_r.
  induction kids as [|x kids IHk]; [reflexivity|]. cbn [flat_map]. rewrite filter_app, !map_app. f_equal; [apply IH; now left|]. apply IHk. intros; apply IH; now right.
Qed.
Lemma toks_sub s a k b e : Sub lt s -> In (a, (k, b, e)) (toks s) -> Sub lt (LT a k b e).
Proof.
  revert s. refine (ltree_rec _ _ _).
  - intros a' k' b' e' H [[= <- <- <- <-]|[]]. exact H.
  - intros a' id tok kids IH H Hi. cbn [toks] in Hi. apply in_flat_map in Hi. destruct Hi as (x & Hx & Hi).
    apply (IH x); auto. eapply Sub_child; eauto.
Qed.

Lemma tokens_ok s fuel : Sub lt s -> 2 * nodes (erase lt) <= fuel -> PtExtModel.tokens fuel m (la s) = Some (map fst (toks s)).
Proof.
  intros H Hf. unfold PtExtModel.tokens. rewrite (traverse_ok m lt eof bp ep HW s fuel H).
  - now rewrite range_filter, toks_tevents.
  - pose proof (tevents_nodes s). pose proof (sub_nodes _ _ H). lia.
Qed.

Lemma covering_list l pos : Forall (fun x => Sub lt (LT (fst x) (fst (fst (snd x))) (snd (fst (snd x))) (snd (snd x)))) l ->
  forall p q, in_a_row p (map snd l) q -> p <= pos -> pos < q ->
  exists a k b e, In (a, (k, b, e)) l /\ covering m pos (map fst l) = Some a /\ b <= pos /\ pos < e.
Proof.
  induction 1 as [|[a [[k b] e]] l H HF IH]; intros p q Hr Hp Hq; cbn [map fst snd] in *.
  - inversion Hr; subst. lia.
  - inversion Hr as [|? ? ? ? ? Hle Hr']; subst. destruct (type_leaf _ _ _ _ H) as (_ & _ & _ & Hl).
    cbn [covering]. rewrite Hl. destruct (Nat.ltb_spec pos e) as [He|He].
    + exists a, k, b, e. split; [now left|]. auto.
    + destruct (IH e q Hr' He Hq) as (a' & k' & b' & e' & H1 & H2). exists a', k', b', e'. split; [now right|exact H2].
Qed.
Lemma covering_none l pos : Forall (fun x => Sub lt (LT (fst x) (fst (fst (snd x))) (snd (fst (snd x))) (snd (snd x)))) l ->
  forall p q, in_a_row p (map snd l) q -> q <= pos -> covering m pos (map fst l) = None.
Proof.
  induction 1 as [|[a [[k b] e]] l H HF IH]; intros p q Hr Hq; cbn [map fst snd covering] in *; auto.
  inversion Hr as [|? ? ? ? ? Hle Hr']; subst. destruct (type_leaf _ _ _ _ H) as (_ & _ & _ & Hl). rewrite Hl.
  pose proof (in_a_row_le _ _ _ Hr'). destruct (Nat.ltb_spec pos e); [lia|]. eapply IH; eauto.
Qed.
Lemma toks_forall : Forall (fun x => Sub lt (LT (fst x) (fst (fst (snd x))) (snd (fst (snd x))) (snd (snd x)))) (toks lt).
Proof. apply Forall_forall. intros [a [[k b] e]] Hi. cbn. eapply toks_sub; [constructor|exact Hi]. Qed.

Lemma find_ok p pos fuel : in_a_row p (leaves (erase lt)) bp -> p <= pos -> 2 * nodes (erase lt) <= fuel ->
  if pos <? bp then exists a k b e, Sub lt (LT a k b e) /\ find_covering_node fuel m (la lt) pos = Some a /\ b <= pos < e
  else find_covering_node fuel m (la lt) pos = None.
Proof.
  intros Hr Hp Hf. unfold find_covering_node. rewrite (tokens_ok lt fuel) by (auto; constructor).
  rewrite <- toks_leaves in Hr. destruct (Nat.ltb_spec pos bp).
  - destruct (covering_list _ pos toks_forall p bp Hr Hp H) as (a & k & b & e & H1 & H2 & H3).
    exists a, k, b, e. split; [|auto]. eapply toks_sub; [constructor|exact H1].
  - eapply covering_none; [apply toks_forall|exact Hr|exact H].
Qed.

Lemma children_if_ok a id tok kids pred fuel : Sub lt (LP a id tok kids) -> length kids <= fuel ->
  children_if fuel m a pred = Some (map la (filter (fun c => pred (la c)) kids)).
Proof.
  intros H Hf. unfold children_if. destruct (children_ok m lt eof bp ep HW _ _ _ _ fuel H Hf) as [-> _]. rewrite range_filter. f_equal.
  clear. induction kids as [|x kids IH]; cbn; auto. destruct (pred (la x)); cbn; now rewrite IH.
Qed.
Lemma filter_ext_in' {A} (f g : A -> bool) l : (forall x, In x l -> f x = g x) -> filter f l = filter g l.
Proof. induction l as [|x l IH]; intros H; cbn; auto. rewrite H by now left. rewrite IH; auto. intros; apply H; now right. Qed.
Lemma children_kind_ok a id tok kids k fuel : Sub lt (LP a id tok kids) -> length kids <= fuel ->
  children_if fuel m a (has_kind m k) = Some (map la (filter (fun c => token_is k (erase c)) kids)).
Proof.
  intros H Hf. rewrite (children_if_ok _ _ _ _ _ _ H Hf). f_equal. f_equal. apply filter_ext_in'. intros c Hc.
  unfold has_kind. rewrite kind_token_ok; auto. eapply Sub_child; eauto.
Qed.
Lemma children_production_ok a id tok kids q fuel : Sub lt (LP a id tok kids) -> length kids <= fuel ->
  children_if fuel m a (has_production m q) = Some (map la (filter (fun c => production_is q (erase c)) kids)).
Proof.
  intros H Hf. rewrite (children_if_ok _ _ _ _ _ _ H Hf). f_equal. f_equal. apply filter_ext_in'. intros c Hc.
  unfold has_production. rewrite kind_production_ok; auto. eapply Sub_child; eauto.
Qed.
Lemma filter_find {A} (f : A -> bool) l : hd_error (filter f l) = find f l.
Proof. induction l as [|x l IH]; cbn; auto. destruct (f x); cbn; auto. Qed.
Lemma child_ok a id tok kids k fuel : Sub lt (LP a id tok kids) -> length kids <= fuel ->
  child_if fuel m a (has_kind m k) = Some (option_map la (find (fun c => token_is k (erase c)) kids)).
Proof.
  intros H Hf. unfold child_if. rewrite (children_kind_ok _ _ _ _ _ _ H Hf). rewrite <- filter_find.
  now destruct (filter _ kids).
Qed.
Lemma child_production_ok a id tok kids q fuel : Sub lt (LP a id tok kids) -> length kids <= fuel ->
  child_if fuel m a (has_production m q) = Some (option_map la (find (fun c => production_is q (erase c)) kids)).
Proof.
  intros H Hf. unfold child_if. rewrite (children_production_ok _ _ _ _ _ _ H Hf). rewrite <- filter_find.
  now destruct (filter _ kids).
Qed.

Lemma find_map {A B} (f : B -> bool) (g : A -> B) l : find f (map g l) = option_map g (find (fun x => f (g x)) l).
Proof. induction l as [|x l IH]; cbn; auto. now destruct (f (g x)). Qed.
Lemma find_ext' {A} (f g : A -> bool) l : (forall x, f x = g x) -> find f l = find g l.
Proof. intros H. induction l as [|x l IH]; cbn; auto. now rewrite H, IH. Qed.
Lemma is_position_token t : token_is KPosition t = is_position t.
Proof. destruct t as [[]|]; reflexivity. Qed.

Lemma node_position_ok s fuel : Sub lt s -> 2 * nodes (erase lt) <= fuel ->
  node_position fuel m (la s) = Some (designated (erase s)).
Proof.
  intros H Hf. pose proof (sub_nodes _ _ H) as Hn. unfold node_position. rewrite (tokens_ok s fuel H Hf).
  destruct s as [a k b e|a id tok kids]; cbn [la].
  - unfold child_if, children_if. destruct (children_token m lt eof bp ep HW a k b e fuel H) as [-> _]. cbn.
    destruct (type_leaf _ _ _ _ H) as (_ & _ & _ & ->). reflexivity.
  - pose proof (kids_nodes a id tok kids). rewrite (child_ok _ _ _ _ KPosition fuel H) by lia.
    unfold designated. cbn [erase]. rewrite find_map.
    replace (find (fun x => is_position (erase x)) kids) with (find (fun c => token_is KPosition (erase c)) kids).
    2: { apply find_ext'. intros x. apply is_position_token. }
    destruct (find (fun c => token_is KPosition (erase c)) kids) as [c|] eqn:Ef; cbn [option_map].
    + apply find_some in Ef. destruct Ef as [Hi Hp]. destruct c as [a' k' b' e'|]; [|discriminate]. cbn [la erase].
      assert (Hc : Sub lt (LT a' k' b' e')) by (eapply Sub_child; eauto). destruct (type_leaf _ _ _ _ Hc) as (_ & _ & _ & ->). reflexivity.
    + change (TProd id tok (map erase kids)) with (erase (LP a id tok kids)). rewrite <- (toks_leaves (LP a id tok kids)).
      destruct (toks (LP a id tok kids)) as [|[a' [[k' b'] e']] l] eqn:Et; [reflexivity|]. cbn [map fst snd].
      assert (Hc : Sub lt (LT a' k' b' e')) by (apply (toks_sub (LP a id tok kids)); auto; rewrite Et; now left).
      destruct (type_leaf _ _ _ _ Hc) as (_ & _ & _ & ->). reflexivity.
Qed.
End Whole.

(** ** The memory of old trees *)
Definition keeps (b b' : buffer) : Prop := b_head b' = b_head b /\ b_blocks b <= b_blocks b'.
Lemma keeps_trans a b c : keeps a b -> keeps b c -> keeps a c.
Proof. intros [] []. split; [congruence|lia]. Qed.
Lemma keeps_refl a : keeps a a.
Proof. split; auto. Qed.
Lemma reserve_keeps cap n b : keeps b (reserve cap n b).
Proof. unfold reserve. destruct (_ <? _); split; cbn; auto. Qed.
Lemma allocate_keeps cap n b a b' : allocate cap n b = Some (a, b') -> keeps b b'.
Proof. unfold allocate. destruct (_ <=? _); [|discriminate]. intros [= <- <-]. split; cbn; auto. Qed.
Lemma set_mem_keeps m b : keeps b (set_mem m b).
Proof. split; reflexivity. Qed.
Lemma unwind_keeps cap a b : keeps b (unwind cap a b).
Proof. split; reflexivity. Qed.
Ltac keep :=
  repeat match goal with
  | H : match ?x with _ => _ end = Some _ |- _ => destruct x eqn:?; try discriminate
  | H : (if ?x then _ else _) = Some _ |- _ => destruct x eqn:?; try discriminate
  | H : Some _ = Some _ |- _ => injection H as H; subst
  | H : (_, _) = (_, _) |- _ => injection H as H; subst
  | H : (let (_, _) := ?x in _) = Some _ |- _ => destruct x eqn:?
  end; cbn [t_buf];
  repeat match goal with
  | H : allocate _ _ _ = Some _ |- _ => apply allocate_keeps in H
  end.
Ltac keep_solve :=
  repeat first [ apply keeps_refl | assumption
    | match goal with
      | |- keeps _ (set_mem _ _) => eapply keeps_trans; [|apply set_mem_keeps]
      | |- keeps _ (unwind _ _ _) => eapply keeps_trans; [|apply unwind_keeps]
      | H : keeps (reserve _ _ _) ?b |- keeps _ ?b => eapply keeps_trans; [|exact H]; clear H
      | H : keeps (set_mem _ _) ?b |- keeps _ ?b => eapply keeps_trans; [|exact H]; clear H
      | |- keeps _ (reserve _ _ _) => eapply keeps_trans; [|apply reserve_keeps]
      end ].

Lemma do_call_keeps cap c t ks t' ks' : do_call cap c (t, ks) = Some (t', ks') -> keeps (t_buf t) (t_buf t').
Proof.
  destruct c; cbn [do_call]; intros H.
  - unfold start_production in H. keep; keep_solve.
  - unfold finish_production in H. keep; keep_solve.
  - unfold cancel_production in H. keep; keep_solve.
  - unfold start_container in H. keep; keep_solve.
  - unfold set_container_production in H. keep; keep_solve.
  - unfold finish_container in H. keep; keep_solve.
  - unfold cancel_container in H. keep; keep_solve.
  - unfold add_token in H. keep; keep_solve.
Qed.
Lemma do_calls_keeps cap cs : forall t ks t' ks', do_calls cap cs (t, ks) = Some (t', ks') -> keeps (t_buf t) (t_buf t').
Proof.
  induction cs as [|c cs IH]; cbn [do_calls]; intros t ks t' ks' H.
  - injection H as <- <-. apply keeps_refl.
  - destruct (do_call cap c (t, ks)) as [[t1 ks1]|] eqn:E; [|discriminate]. eapply keeps_trans; [eapply do_call_keeps; eauto|eauto].
Qed.
Lemma start_keeps cap b p t : start cap b p = Some t -> keeps (reset b) (t_buf t).
Proof. unfold start. intros H. keep; keep_solve. Qed.
Lemma finish_keeps cap b e t tr : finish cap b e t = Some tr -> keeps (t_buf t) (p_buf tr).
Proof. unfold finish. intros H. keep; cbn [p_buf]; keep_solve. Qed.
Lemma wf_keeps b b' : wf_old b -> keeps b b' -> wf_old b'.
Proof. intros H [H1 H2] h Hh. rewrite H1 in Hh. apply H in Hh. lia. Qed.
Lemma wf_reset b : wf_old b -> wf_old (reset b).
Proof. intros H h. unfold reset. destruct (b_head b) as [x|] eqn:E; cbn; intros [= <-]; auto. Qed.
Lemma wf_new : wf_old new_buffer.
Proof. intros h H. discriminate. Qed.

Lemma build_wf cap old root cs b e tr : wf_old old -> build cap old root cs b e = Some tr -> wf_old (p_buf tr).
Proof.
  unfold build. intros Hw H. destruct (start cap old root) as [t|] eqn:E1; [|discriminate].
  destruct (do_calls cap cs (t, [])) as [[t' [|]]|] eqn:E2; try discriminate.
  eapply wf_keeps; [|eapply finish_keeps; exact H]. eapply wf_keeps; [|eapply do_calls_keeps; exact E2].
  eapply wf_keeps; [|eapply start_keeps; exact E1]. now apply wf_reset.
Qed.

Section Handlers.
Variables (cap len : nat) (infos : nat -> info) (root : nat).
Definition wf_h (h : handler) : Prop :=
  wf_old (p_buf (h_tree h)) /\ match h_build h with Some (t, _) => wf_old (t_buf t) | None => True end.
Lemma on_wf ev h h' : wf_h h -> PtActModel.on cap len infos root ev h = Some h' -> wf_h h'.
Proof.
  intros [H1 H2] H.
  assert (Hc : forall cs x, calls cap cs h = Some x -> wf_old (t_buf (fst x))).
  { intros cs [t ks] E. unfold calls in E. destruct (h_build h) as [[t0 ks0]|]; [|discriminate].
    eapply wf_keeps; [exact H2|]. eapply do_calls_keeps; exact E. }
  destruct ev; cbn [PtActModel.on] in H.
  - destruct (h_depth h =? 0); [|discriminate]. destruct (start _ _ _) eqn:E; [|discriminate]. injection H as <-.
    split; cbn; [apply wf_new|]. eapply wf_keeps; [|eapply start_keeps; exact E]. now apply wf_reset.
  - destruct (h_depth h =? 0); [|discriminate]. destruct (h_build h) as [[t [|]]|]; try discriminate.
    destruct (finish _ _ _ _) eqn:E; [|discriminate]. injection H as <-. split; cbn; auto.
    eapply wf_keeps; [|eapply finish_keeps; exact E]. exact H2.
  - destruct (h_depth h =? 0); [|discriminate]. injection H as <-. split; cbn; auto. now apply wf_reset.
  - destruct (0 <? h_depth h).
    + destruct (calls _ _ _) as [x|] eqn:E; [|discriminate]. injection H as <-. split; cbn; auto. apply Hc in E. now destruct x.
    + injection H as <-. split; cbn; auto.
  - destruct (h_depth h) as [|d]; [discriminate|]. destruct (h_begins h) as [|b bs]; [discriminate|]. destruct (0 <? d).
    + destruct (h_build h) as [[t ks]|] eqn:Eb; [|discriminate].
      destruct (calls _ _ _) as [x|] eqn:E; [|discriminate]. injection H as <-. split; cbn; auto. apply Hc in E. now destruct x.
    + injection H as <-. split; cbn; auto.
  - destruct (h_depth h) as [|d]; [discriminate|]. destruct (h_begins h) as [|b bs]; [discriminate|]. destruct (0 <? d).
    + destruct (calls _ _ _) as [x|] eqn:E; [|discriminate]. injection H as <-. split; cbn; auto. apply Hc in E. now destruct x.
    + injection H as <-. split; cbn; auto.
  - destruct (calls _ _ _) as [x|] eqn:E; [|discriminate]. injection H as <-. split; cbn; auto. apply Hc in E. now destruct x.
  - injection H as <-. split; auto.
  - injection H as <-. split; auto.
  - injection H as <-. split; auto.
  - injection H as <-. split; auto.
  - injection H as <-. split; auto.
Qed.
Lemma on_all_wf es : forall h h', wf_h h -> PtActModel.on_all cap len infos root es h = Some h' -> wf_h h'.
Proof.
  induction es as [|e es IH]; cbn [PtActModel.on_all]; intros h h' Hw H; [injection H as <-; auto|].
  destruct (PtActModel.on _ _ _ _ e h) eqn:E; [|discriminate]. eapply IH; [|exact H]. eapply on_wf; eauto.
Qed.
End Handlers.
Lemma parse_wf cap inp prods transparent n p old o tr :
  wf_old (p_buf old) -> parse_as_tree cap inp prods transparent n p old = Some (o, tr) -> wf_old (p_buf tr).
Proof.
  unfold parse_as_tree. intros Hw H. destruct (action inp prods n p); try discriminate.
  destruct (on_all _ _ _ _ _ _) eqn:E; [|discriminate]. injection H as <- <-.
  eapply on_all_wf in E; [apply E|]. split; [exact Hw|exact I].
Qed.

(** ** The blocks of a tree that was built in new memory *)
Definition linked (b : buffer) : Prop :=
  b_head b = Some 0 /\ S (fst (b_top b)) = b_blocks b /\
  (forall i, S i < b_blocks b -> b_next b i = Some (S i)) /\ (forall i, b_blocks b <= S i -> b_next b i = None).
Lemma linked_new : linked (reset new_buffer).
Proof. repeat split; cbn; intros; try lia; auto. Qed.
Lemma linked_reserve cap n b : linked b -> linked (reserve cap n b).
Proof.
  unfold reserve. intros H. destruct (_ <? _); [|exact H]. destruct H as (H1 & H2 & H3 & H4). repeat split; cbn; auto; intros i Hi.
  - destruct (Nat.eqb_spec i (fst (b_top b))); [subst; f_equal; lia|]. apply H3. lia.
  - destruct (Nat.eqb_spec i (fst (b_top b))); [lia|]. apply H4. lia.
Qed.
Lemma linked_allocate cap n b a b' : allocate cap n b = Some (a, b') -> linked b -> linked b'.
Proof. unfold allocate. destruct (_ <=? _); [|discriminate]. intros [= <- <-] (H1 & H2 & H3 & H4). repeat split; cbn; auto. Qed.
Lemma linked_set_mem m b : linked b -> linked (set_mem m b).
Proof. intros (H1 & H2 & H3 & H4). repeat split; auto. Qed.
Lemma linked_unwind cap a b : linked b -> linked (unwind cap a b).
Proof.
  intros (H1 & H2 & H3 & H4). unfold unwind. split; [exact H1|]. split; [|split; [exact H3|exact H4]]. cbn [b_top b_blocks].
  destruct (Nat.eqb_spec (fst a) (fst (b_top b))); cbn [andb]; [|exact H2]. destruct (snd a <? cap); cbn [fst]; lia.
Qed.
Ltac link :=
  repeat match goal with
  | H : match ?x with _ => _ end = Some _ |- _ => destruct x eqn:?; try discriminate
  | H : (if ?x then _ else _) = Some _ |- _ => destruct x eqn:?; try discriminate
  | H : Some _ = Some _ |- _ => injection H as H; subst
  | H : (_, _) = (_, _) |- _ => injection H as H; subst
  | H : (let (_, _) := ?x in _) = Some _ |- _ => destruct x eqn:?
  end; cbn [t_buf];
  repeat first [ assumption | apply linked_set_mem | apply linked_unwind | apply linked_reserve
    | match goal with H : allocate _ _ _ = Some (_, ?b) |- linked ?b => apply (linked_allocate _ _ _ _ _ H); clear H end ].
Lemma do_call_linked cap c t ks t' ks' : do_call cap c (t, ks) = Some (t', ks') -> linked (t_buf t) -> linked (t_buf t').
Proof.
  destruct c; cbn [do_call]; intros H L.
  - unfold start_production in H. link.
  - unfold finish_production in H. link.
  - unfold cancel_production in H. link.
  - unfold start_container in H. link.
  - unfold set_container_production in H. link.
  - unfold finish_container in H. link.
  - unfold cancel_container in H. link.
  - unfold add_token in H. link.
Qed.
Lemma do_calls_linked cap cs : forall t ks t' ks', do_calls cap cs (t, ks) = Some (t', ks') -> linked (t_buf t) -> linked (t_buf t').
Proof.
  induction cs as [|c cs IH]; cbn [do_calls]; intros t ks t' ks' H L.
  - injection H as <- <-. exact L.
  - destruct (do_call cap c (t, ks)) as [[t1 ks1]|] eqn:E; [|discriminate]. eapply IH; [exact H|]. eapply do_call_linked; eauto.
Qed.
Lemma released_all next n : (forall i, S i < n -> next i = Some (S i)) -> (forall i, n <= S i -> next i = None) ->
  forall k fuel, k < n -> n - k <= fuel -> released fuel next (Some k) = seq k (n - k).
Proof.
  intros H1 H2 k fuel. revert k. induction fuel as [|fuel IH]; intros k Hk Hf; [lia|]. cbn [released].
  replace (n - k) with (S (n - S k)) by lia. cbn [seq]. f_equal. destruct (Nat.eq_dec (S k) n) as [E|E].
  - rewrite H2 by lia. replace (n - S k) with 0 by lia. now destruct fuel.
  - rewrite H1 by lia. apply IH; lia.
Qed.
Lemma linked_destroyed b : linked b -> destroyed b = seq 0 (b_blocks b).
Proof.
  intros (H1 & H2 & H3 & H4). unfold destroyed. rewrite H1. rewrite (released_all _ (b_blocks b) H3 H4) by lia.
  now rewrite Nat.sub_0_r.
Qed.
Lemma build_released cap root cs b e tr : build cap new_buffer root cs b e = Some tr ->
  destroyed (p_buf tr) = seq 0 (b_blocks (p_buf tr)).
Proof.
  unfold build. intros H. destruct (start cap new_buffer root) as [t|] eqn:E1; [|discriminate].
  destruct (do_calls cap cs (t, [])) as [[t' [|]]|] eqn:E2; try discriminate. apply linked_destroyed.
  assert (L1 : linked (t_buf t)). { unfold start in E1. link. apply linked_new. }
  assert (L2 := do_calls_linked _ _ _ _ _ _ E2 L1). unfold finish in H. link.
Qed.

(** ** Events determine the tree *)
Definition closing (l : list event) : Prop :=
  match l with [] => True | EPFinish _ _ :: _ | EPCancel _ _ :: _ => True | _ => False end.
Lemma grows_det infos ts es ts' n : grows infos ts es ts' n ->
  forall es2 ts2 n2 r r2, grows infos ts es2 ts2 n2 -> es ++ r = es2 ++ r2 -> closing r -> closing r2 ->
  es = es2 /\ ts' = ts2 /\ n = n2.
Proof.
  induction 1 as [ts|ts k b e es ts' n H IH|ts e es ts' n He H IH|ts q b r0 es kids n es' ts' n' Ht H IH H' IH'
    |ts q b r0 es ts1 n es' ts' n' Ht H IH H' IH'|ts q b r0 es kids n es' ts' n' Ht H IH H' IH'|ts q b r0 es ts1 n es' ts' n' Ht H IH H' IH'];
    intros es2 ts2 n2 r r2 H2 E Hr Hr2; cbn [app] in E.
  - destruct H2; cbn [app] in E; subst r; auto; try now destruct Hr. destruct e; try now destruct Hr. all: now destruct H.
  - inversion H2 as [|? ? ? ? ? ? ? H2'|? ? ? ? ? He2 H2'| | | |]; subst; cbn [app] in E; try discriminate.
    + subst. now destruct Hr2.
    + injection E as <- <- <- E. destruct (IH _ _ _ _ _ H2' E Hr Hr2) as (-> & -> & ->). auto.
    + injection E as <- E. destruct He2.
  - inversion H2 as [|? ? ? ? ? ? ? H2'|? ? ? ? ? He2 H2'| | | |]; subst; cbn [app] in E; try (injection E as -> E; now destruct He).
    + subst. destruct e; try now destruct Hr2. all: now destruct He.
    + injection E as <- E. destruct (IH _ _ _ _ _ H2' E Hr Hr2) as (-> & -> & ->). auto.
  - inversion H2 as [|? ? ? ? ? ? ? H2'|? ? ? ? ? He2 H2'|? ? ? ? ? ? ? ? ? ? Ht2 Ha2 Hb2|? ? ? ? ? ? ? ? ? ? Ht2 Ha2 Hb2|? ? ? ? ? ? ? ? ? ? Ht2 Ha2 Hb2|? ? ? ? ? ? ? ? ? ? Ht2 Ha2 Hb2]; subst; cbn [app] in E; try discriminate.
    + subst. now destruct Hr2.
    + injection E as <- E. now destruct He2.
    + injection E as <- <- E. rewrite <- !app_assoc in E. cbn [app] in E. destruct (IH _ _ _ _ _ Ha2 E I I) as (-> & -> & ->).
      apply app_inv_head in E. injection E as <- E. destruct (IH' _ _ _ _ _ Hb2 E Hr Hr2) as (-> & -> & ->). auto.
    + injection E as <- <- E. congruence.
    + injection E as <- <- E. rewrite <- !app_assoc in E. cbn [app] in E. destruct (IH _ _ _ _ _ Ha2 E I I) as (-> & -> & ->).
      apply app_inv_head in E. discriminate.
    + injection E as <- <- E. congruence.
  - inversion H2 as [|? ? ? ? ? ? ? H2'|? ? ? ? ? He2 H2'|? ? ? ? ? ? ? ? ? ? Ht2 Ha2 Hb2|? ? ? ? ? ? ? ? ? ? Ht2 Ha2 Hb2|? ? ? ? ? ? ? ? ? ? Ht2 Ha2 Hb2|? ? ? ? ? ? ? ? ? ? Ht2 Ha2 Hb2]; subst; cbn [app] in E; try discriminate.
    + subst. now destruct Hr2.
    + injection E as <- E. now destruct He2.
    + injection E as <- <- E. congruence.
    + injection E as <- <- E. rewrite <- !app_assoc in E. cbn [app] in E. destruct (IH _ _ _ _ _ Ha2 E I I) as (-> & -> & ->).
      apply app_inv_head in E. injection E as <- E. destruct (IH' _ _ _ _ _ Hb2 E Hr Hr2) as (-> & -> & ->). auto.
    + injection E as <- <- E. congruence.
    + injection E as <- <- E. rewrite <- !app_assoc in E. cbn [app] in E. destruct (IH _ _ _ _ _ Ha2 E I I) as (-> & -> & ->).
      apply app_inv_head in E. discriminate.
  - inversion H2 as [|? ? ? ? ? ? ? H2'|? ? ? ? ? He2 H2'|? ? ? ? ? ? ? ? ? ? Ht2 Ha2 Hb2|? ? ? ? ? ? ? ? ? ? Ht2 Ha2 Hb2|? ? ? ? ? ? ? ? ? ? Ht2 Ha2 Hb2|? ? ? ? ? ? ? ? ? ? Ht2 Ha2 Hb2]; subst; cbn [app] in E; try discriminate.
    + subst. now destruct Hr2.
    + injection E as <- E. now destruct He2.
    + injection E as <- <- E. rewrite <- !app_assoc in E. cbn [app] in E. destruct (IH _ _ _ _ _ Ha2 E I I) as (-> & -> & ->).
      apply app_inv_head in E. discriminate.
    + injection E as <- <- E. congruence.
    + injection E as <- <- E. rewrite <- !app_assoc in E. cbn [app] in E. destruct (IH _ _ _ _ _ Ha2 E I I) as (-> & -> & ->).
      apply app_inv_head in E. injection E as <- E. destruct (IH' _ _ _ _ _ Hb2 E Hr Hr2) as (-> & -> & ->). auto.
    + injection E as <- <- E. congruence.
  - inversion H2 as [|? ? ? ? ? ? ? H2'|? ? ? ? ? He2 H2'|? ? ? ? ? ? ? ? ? ? Ht2 Ha2 Hb2|? ? ? ? ? ? ? ? ? ? Ht2 Ha2 Hb2|? ? ? ? ? ? ? ? ? ? Ht2 Ha2 Hb2|? ? ? ? ? ? ? ? ? ? Ht2 Ha2 Hb2]; subst; cbn [app] in E; try discriminate.
    + subst. now destruct Hr2.
    + injection E as <- E. now destruct He2.
    + injection E as <- <- E. congruence.
    + injection E as <- <- E. rewrite <- !app_assoc in E. cbn [app] in E. destruct (IH _ _ _ _ _ Ha2 E I I) as (-> & -> & ->).
      apply app_inv_head in E. discriminate.
    + injection E as <- <- E. congruence.
    + injection E as <- <- E. rewrite <- !app_assoc in E. cbn [app] in E. destruct (IH _ _ _ _ _ Ha2 E I I) as (-> & -> & ->).
      apply app_inv_head in E. injection E as <- E. destruct (IH' _ _ _ _ _ Hb2 E Hr Hr2) as (-> & -> & ->). auto.
Qed.
Lemma grows_unique infos ts es ts1 n1 ts2 n2 : grows infos ts es ts1 n1 -> grows infos ts es ts2 n2 -> ts1 = ts2 /\ n1 = n2.
Proof. intros H1 H2. now apply (grows_det _ _ _ _ _ H1 _ _ _ [] [] H2 eq_refl). Qed.

(** ** parse_as_tree *)
Section Parse.
Variables (inp : list N) (prods : nat -> production) (transparent : nat -> bool) (cap : nat).
Hypothesis Hcap : 4 <= cap.

Lemma parse_as_tree_ok n p vs s k old :
  wf_old (p_buf old) -> action inp prods n p = Res (OTrue vs) s k ->
  exists es, rev (trace s) = [EGStart 0; EPStart p 0] ++ es ++ [EPFinish p (pos s); EGFinish (pos s)] /\
  (one_grammar es = true ->
   exists tr lt eof kids lo,
    parse_as_tree cap inp prods transparent n p old = Some (OTrue vs, tr) /\
    p_root tr = Some (la lt) /\ erase lt = TProd p (p_token (prods p)) kids /\
    grows (info_of prods transparent) [] es kids lo /\
    Whole (b_mem (p_buf tr)) lt eof (pos s) (length inp) /\
    (forall w, In w (fp lt ++ node_words eof) -> fst w < b_blocks (p_buf tr) /\ snd w < cap) /\
    p_depth tr = height (erase lt) /\ p_size tr = nodes (erase lt) + lo /\
    fulls kids = true /\
    (harmless (info_of prods transparent) es [] = true -> row 0 kids (pos s))).
Proof.
  intros Hold Ha. destruct (action_parts _ _ _ _ _ _ _ Ha) as (es & He & Hg & Hb).
  destruct (action_events _ _ _ _ _ _ _ Ha) as (_ & _ & _ & Hle).
  exists es. split; [exact He|]. intros Hone. set (infos := info_of prods transparent).
  destruct (start_ok cap (p_buf old) (infos p) Hcap Hold) as (t & Et & HI).
  destruct (run_segment cap Hcap (length inp) infos p 0 es (pos s) Hg Hone t [] _ [] 0 1 (moved old) [0] HI)
    as (t' & g' & st' & x' & kids & E & HI' & Ex & Hr & Hgr & _ & Hfu & Hrow); [lia|intros ? ? ? []|].
  rewrite Nat.add_0_r in HI'. apply erase_inv in Ex. destruct Ex as [Ef Es]. destruct st' as [|? ?]; [|discriminate].
  destruct (finish_ok cap t' g' x' (pos s) (length inp) Hcap HI' Hle) as (tr & lt & eof & F1 & F2 & F3 & F4 & F5 & F6 & F7 & F8).
  exists tr, lt, eof, kids, x'.
  assert (Hlt : erase lt = TProd p (p_token (prods p)) kids).
  { rewrite F4. unfold erase_gf in Ef. injection Ef as Ef1 Ef2. cbn in Ef1. rewrite Ef2. destruct (gp g') as [[? [? ?]]|]; [|discriminate].
    cbn in Ef1. injection Ef1 as -> ->. reflexivity. }
  split.
  { unfold parse_as_tree. rewrite Ha, He. cbn [app on_all on h_depth h_tree h_begins h_build Nat.eqb p_buf]. fold infos. rewrite Et.
    cbn [on_all on h_depth h_tree h_begins h_build Nat.ltb Nat.leb]. rewrite on_all_app, E.
    cbn [on_all on h_depth h_tree h_begins h_build Nat.ltb Nat.leb Nat.eqb]. rewrite F1. reflexivity. }
  split; [congruence|]. split; [exact Hlt|]. split; [exact Hgr|]. split; [exact F5|]. split; [exact F6|]. split; [exact F8|].
  split; [exact F7|]. split; [apply Hfu; reflexivity|]. intros Hh. apply Hrow; [exact Hh|constructor].
Qed.

Lemma parse_as_tree_fails n p s k old :
  wf_old (p_buf old) -> action inp prods n p = Res OFalse s k ->
  exists es, rev (trace s) = [EGStart 0; EPStart p 0] ++ es ++ [EPCancel p (pos s); EGCancel (pos s)] /\
  (one_grammar es = true ->
   exists tr, parse_as_tree cap inp prods transparent n p old = Some (OFalse, tr) /\ tree_empty tr = true).
Proof.
  intros Hold Ha. destruct (action_parts _ _ _ _ _ _ _ Ha) as (es & He & Hg & Hb).
  exists es. split; [exact He|]. intros Hone. set (infos := info_of prods transparent).
  destruct (start_ok cap (p_buf old) (infos p) Hcap Hold) as (t & Et & HI).
  destruct (run_segment cap Hcap (length inp) infos p 0 es (pos s) Hg Hone t [] _ [] 0 1 (moved old) [0] HI)
    as (t' & g' & st' & x' & kids & E & _); [lia|intros ? ? ? []|].
  eexists. split.
  { unfold parse_as_tree. rewrite Ha, He. cbn [app on_all on h_depth h_tree h_begins h_build Nat.eqb p_buf]. fold infos. rewrite Et.
    cbn [on_all on h_depth h_tree h_begins h_build Nat.ltb Nat.leb]. rewrite on_all_app, E.
    cbn [on_all on h_depth h_tree h_begins h_build Nat.ltb Nat.leb Nat.eqb]. reflexivity. }
  reflexivity.
Qed.
End Parse.

(** ** Trees, however they were made *)
Lemma app_tail_inv {A} (a b x y : list A) : length x = length y -> a ++ x = b ++ y -> a = b /\ x = y.
Proof.
  intros Hl H. assert (length a = length b) by (apply (f_equal (@length A)) in H; rewrite !app_length in H; lia).
  revert b H H0. induction a as [|z a IH]; intros [|w b] H H0; try discriminate; [auto|].
  cbn in H. injection H as <- H. cbn in H0. destruct (IH b H) as [-> ->]; auto.
Qed.

Lemma made_whole cap tr t b e : 4 <= cap -> made cap tr t b e ->
  exists lt eof, p_root tr = Some (la lt) /\ erase lt = t /\ Whole (b_mem (p_buf tr)) lt eof b e /\
    (forall w, In w (fp lt ++ node_words eof) -> fst w < b_blocks (p_buf tr) /\ snd w < cap) /\
    p_depth tr = height t /\ wf_old (p_buf tr).
Proof.
  intros Hcap H. destruct H as [old root cs b e t tr Hw Hbe Hs Hc Hb|old inp prods transparent n p vs s k es kids lo tr Hw Ha Hes Hone Hg Hp].
  - destruct (build_ok cap old root cs b e t Hcap Hw Hbe Hs Hc) as (tr' & lt & eof & E & H1 & H2 & H3 & H4 & H5 & H6).
    rewrite Hb in E. injection E as <-. exists lt, eof. repeat (split; [assumption|]). eapply build_wf; eauto.
  - destruct (parse_as_tree_ok inp prods transparent cap Hcap n p vs s k old Hw Ha) as (es' & He' & H).
    rewrite Hes in He'. apply app_inv_head in He'. apply app_tail_inv in He'; [|reflexivity]. destruct He' as [<- _].
    destruct (H Hone) as (tr' & lt & eof & kids' & lo' & E & H1 & H2 & H3 & H4 & H5 & H6 & H7 & _).
    destruct (grows_unique _ _ _ _ _ _ _ Hg H3) as [<- <-]. rewrite Hp in E. injection E as <-.
    exists lt, eof. rewrite <- H2. repeat (split; [assumption|]). split; [reflexivity|]. repeat (split; [assumption|]). eapply parse_wf; eauto.
Qed.

Lemma whole_remaining tr lt eof b e : p_root tr = Some (la lt) -> Whole (b_mem (p_buf tr)) lt eof b e -> remaining_input tr = Some (b, e).
Proof.
  intros Hr HW. unfold remaining_input. rewrite Hr. unfold next_node. rewrite (W_root _ _ _ _ _ HW).
  destruct (W_eof _ _ _ _ _ HW) as (_ & H2 & H3 & H4). unfold token_begin, token_end. rewrite H2, H3. f_equal. f_equal. lia.
Qed.

(** ** Lossless *)
Lemma slice_app inp p e q : p <= e -> e <= q -> q <= length inp -> slice inp p e ++ slice inp e q = slice inp p q.
Proof.
  intros H1 H2 H3. unfold slice. replace (q - p) with ((e - p) + (q - e)) by lia.
  rewrite <- (firstn_skipn (e - p) (skipn p inp)) at 2. rewrite firstn_app.
  rewrite firstn_firstn. rewrite Nat.min_r by lia. f_equal.
  rewrite firstn_length, skipn_length. replace (e - p + (q - e) - Nat.min (e - p) (length inp - p)) with (q - e) by lia.
  f_equal. clear H2 H3. revert inp e H1. induction p as [|p IH]; intros inp e H1; [now rewrite Nat.sub_0_r|].
  destruct e as [|e]; [lia|]. destruct inp as [|x inp]; [cbn; now rewrite !skipn_nil|]. cbn [skipn Nat.sub]. apply IH. lia.
Qed.
Lemma row_slices inp p l q : in_a_row p l q -> q <= length inp ->
  flat_map (fun x => slice inp (snd (fst x)) (snd x)) l = slice inp p q.
Proof.
  induction 1 as [p|k p e l q Hle H IH]; intros Hq; cbn [flat_map fst snd].
  - unfold slice. now rewrite Nat.sub_diag.
  - rewrite IH by auto. apply slice_app; auto. now apply (in_a_row_le _ _ _ H).
Qed.
Lemma slice_all inp q : q <= length inp -> slice inp 0 q ++ slice inp q (length inp) = inp.
Proof. intros H. rewrite slice_app by lia. unfold slice. cbn [skipn]. rewrite Nat.sub_0_r. apply firstn_all. Qed.
