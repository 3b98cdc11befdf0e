(** Parsing a parse tree follows the tree. *)
From Verif Require Import Prelude RuleModel PtModel PtSpec PtMem PtNav PtWalk PtMain NdModel NdSpec.
Close Scope N_scope.

Lemma no_errors_app a b : no_errors (a ++ b) <-> no_errors a /\ no_errors b.
Proof.
  unfold no_errors. split.
  - intros H. split; intros e He; apply H; apply in_or_app; auto.
  - intros (H1 & H2) e He. apply in_app_or in He. destruct He; auto.
Qed.
Lemma no_errors_nil : no_errors [].
Proof. intros e []. Qed.
Lemma tokens_app a b : tokens_of (a ++ b) = tokens_of a ++ tokens_of b.
Proof. apply flat_map_app. Qed.
Lemma row_join p l q l' r : in_a_row p l q -> in_a_row q l' r -> in_a_row p (l ++ l') r.
Proof. induction 1; intros H'; [exact H'|]. cbn. constructor; auto. Qed.
Lemma row_le p l q : in_a_row p l q -> p <= q.
Proof. induction 1; lia. Qed.
Lemma row_ends p l q : in_a_row p l q -> l <> [] -> first_begin l = Some p /\ last_end l = Some q.
Proof.
  intros H Hne. split; [|eapply in_a_row_last; eauto]. inversion H; subst; [contradiction|reflexivity].
Qed.

Definition kids_of (s : ltree) : list ltree := match s with LT _ _ _ _ => [] | LP _ _ _ kids => kids end.
Definition beg (s : ltree) : nat := match first_begin (leaves (erase s)) with Some b => b | None => 0 end.
Definition fin (s : ltree) : nat := match last_end (leaves (erase s)) with Some b => b | None => 0 end.
Definition here (P : ltree) (post : list ltree) : nat := match post with u :: _ => beg u | [] => fin P end.

Lemma Sub_kids lt s u : Sub lt s -> In u (kids_of s) -> Sub lt u.
Proof. destruct s; [intros _ []|]. apply Sub_child. Qed.

Section Nd.
Variables (m : memory) (lt : ltree) (eof : addr) (bp ep p0 F : nat).
Hypothesis HW : Whole m lt eof bp ep.
Hypothesis Hfull : full (erase lt) = true.
Hypothesis Hrow : in_a_row p0 (leaves (erase lt)) bp.
Hypothesis HF : nodes (erase lt) < F.

Lemma node_row s : Sub lt s -> in_a_row (beg s) (leaves (erase s)) (fin s).
Proof.
  intros Hs. destruct (Sub_ctx m lt eof bp ep HW s Hs) as (L & R & HC) || destruct (Sub_ctx lt s Hs) as (L & R & HC).
  pose proof (Ctx_leaves _ _ _ _ HC) as El. rewrite El in Hrow. apply in_a_row_app in Hrow. destruct Hrow as (r & _ & H).
  apply in_a_row_app in H. destruct H as (r2 & H & _).
  pose proof (full_leaves _ (Sub_full _ _ Hfull Hs)) as Hne.
  destruct (row_ends _ _ _ H Hne) as (E1 & E2). unfold beg, fin. now rewrite E1, E2.
Qed.
Lemma kid_ranges P pre u post : Sub lt P -> kids_of P = pre ++ u :: post ->
  fin u = here P post /\ beg u <= fin u.
Proof.
  intros HP E. pose proof (node_row P HP) as HR.
  assert (Hu : Sub lt u). { eapply Sub_kids; [exact HP|]. rewrite E. apply in_or_app. right. now left. }
  pose proof (node_row u Hu) as HU. split; [|eapply row_le; exact HU].
  destruct P as [|a id tok kids]; [destruct pre; discriminate|]. cbn [kids_of] in E. subst kids.
  cbn [erase leaves] in HR. rewrite map_app, flat_map_app in HR. apply in_a_row_app in HR. destruct HR as (r & _ & HR).
  cbn [map flat_map] in HR. apply in_a_row_app in HR. destruct HR as (r2 & H1 & H2).
  destruct (row_ends _ _ _ H1 (full_leaves _ (Sub_full _ _ Hfull Hu))) as (_ & E2).
  unfold fin at 1. rewrite E2. destruct post as [|v post]; cbn [here].
  - inversion H2; subst. reflexivity.
  - cbn [map flat_map] in H2. apply in_a_row_app in H2. destruct H2 as (r3 & H2 & _).
    assert (Hv : Sub lt v). { eapply Sub_child; [exact HP|]. apply in_or_app. right. right. now left. }
    destruct (row_ends _ _ _ H2 (full_leaves _ (Sub_full _ _ Hfull Hv))) as (E3 & _). unfold beg. now rewrite E3.
Qed.
Lemma kids_begin P : Sub lt P -> kids_of P <> [] -> here P (kids_of P) = beg P.
Proof.
  intros HP. destruct P as [|a id tok [|u kids]]; try contradiction. intros _. cbn [kids_of here].
  assert (Hu : Sub lt u) by (eapply Sub_child; [exact HP|now left]).
  unfold beg. cbn [erase leaves map flat_map]. rewrite first_begin_app; [reflexivity|].
  apply full_leaves. now apply (Sub_full lt).
Qed.
Lemma no_empty P : Sub lt P -> type_of m (la P) = Some true -> kids_of P <> [].
Proof.
  intros HP Ht. destruct P as [a k b e|a id tok kids].
  - rewrite (head_type m _ (node_rep _ _ _ _ _ HW _ HP)) in Ht. discriminate.
  - pose proof (Sub_full _ _ Hfull HP) as Hf. cbn in Hf. intros E. cbn in E. subst kids. discriminate.
Qed.

(** ** The reader *)
Definition At (x : reader) (P : ltree) (post : list ltree) : Prop :=
  Sub lt P /\ (exists pre, kids_of P = pre ++ post) /\ x = Rd (la P) (hda post).

Lemma height_F : height (erase lt) < F.
Proof. pose proof (height_nodes (erase lt)). lia. Qed.
Lemma At_pos x P post : At x P post -> pos m F x = Some (here P post).
Proof.
  intros (HP & (pre & E) & ->). unfold pos. cbn [r_cur r_parent]. destruct post as [|u post]; cbn [hda here].
  - destruct (covering_ok m lt eof bp ep HW P p0 F Hfull Hrow HP height_F) as (b & e & _ & E2 & _ & E4). rewrite E4.
    unfold fin. now rewrite E2.
  - assert (Hu : Sub lt u). { eapply Sub_kids; [exact HP|]. rewrite E. apply in_or_app. right. now left. }
    destruct (covering_ok m lt eof bp ep HW u p0 F Hfull Hrow Hu height_F) as (b & e & E1 & _ & E3 & _). rewrite E3.
    unfold beg. now rewrite E1.
Qed.
Lemma At_head x P u post : At x P (u :: post) -> Sub lt u.
Proof. intros (HP & (pre & E) & _). eapply Sub_kids; [exact HP|]. rewrite E. apply in_or_app. right. now left. Qed.
Lemma At_bump x P u post : At x P (u :: post) -> exists x', bump m x = Some x' /\ At x' P post.
Proof.
  intros H. pose proof (At_head _ _ _ _ H) as Hu. destruct H as (HP & (pre & E) & ->).
  exists (Rd (la P) (hda post)). split.
  - unfold bump. cbn [r_cur hda]. unfold n_sibling, link_of. destruct P as [|a id tok kids]; [destruct pre; discriminate|].
    cbn [kids_of] in E. subst kids.
    destruct (child_link _ _ _ _ _ _ _ (node_rep _ _ _ _ _ HW _ HP)) as (ty & El). rewrite El.
    destruct post; reflexivity.
  - split; [exact HP|]. split; [|reflexivity]. exists (pre ++ [u]). now rewrite <- app_assoc.
Qed.
Lemma At_child x P u post : At x P (u :: post) -> exists c, child_reader m x = Some c /\ At c u (kids_of u).
Proof.
  intros H. pose proof (At_head _ _ _ _ H) as Hu. destruct H as (HP & (pre & E) & ->).
  exists (Rd (la u) (hda (kids_of u))). split.
  - unfold child_reader, open_reader. cbn [r_cur hda]. unfold n_first_child.
    pose proof (node_rep _ _ _ _ _ HW _ Hu) as Hr. rewrite (head_type m _ Hr). destruct u as [|a id tok kids]; [reflexivity|].
    cbn [la]. now rewrite (first_child_ok m _ _ _ _ Hr).
  - split; [exact Hu|]. split; [exists []; reflexivity|reflexivity].
Qed.
Lemma At_kind x P post d : At x P post ->
  n_has_kind m (r_cur x) d = Some (next_is d (map erase post)).
Proof.
  intros H. destruct post as [|u post].
  - destruct H as (_ & _ & ->). reflexivity.
  - pose proof (At_head _ _ _ _ H) as Hu. destruct H as (_ & _ & ->). cbn [r_cur hda n_has_kind map next_is].
    destruct d as [k|id].
    + rewrite (kind_token_ok m lt eof bp ep HW u k Hu). destruct u; reflexivity.
    + rewrite (kind_production_ok m lt eof bp ep HW u id Hu). destruct u; reflexivity.
Qed.
Lemma At_lexeme x P a k b e post : At x P (LT a k b e :: post) -> lexeme_reader m x = Some (b, e).
Proof.
  intros H. pose proof (At_head _ _ _ _ H) as Hu. destruct H as (_ & _ & ->). unfold lexeme_reader. cbn [r_cur hda la].
  unfold lexeme. destruct (node_rep _ _ _ _ _ HW _ Hu) as (H1 & H2 & H3 & H4). rewrite H1. unfold token_begin, token_end.
  rewrite H2, H3. do 2 f_equal. lia.
Qed.

Variable prods : nat -> nrule.
Variable ws : option nkind.
Variable lexrule : nat -> nat -> nat -> bool * nat * list nev.
Hypothesis Hlex : lex_ok lexrule.

Definition is_ws (t : ptree) : bool := match ws with Some d => node_is d t | None => false end.
Definition settled (post : list ltree) : Prop := match post with u :: _ => is_ws (erase u) = false | [] => True end.
(** What is left, as the rules see it. *)
Definition seen (post : list ltree) : list ptree :=
  filter (fun t => negb (is_ws t)) (map (strip ws) (map erase post)).
Lemma is_strip t : is_ws (strip ws t) = is_ws t.
Proof. unfold is_ws. destruct ws as [d|]; [|reflexivity]. destruct d, t; reflexivity. Qed.
Lemma node_strip d t : node_is d (strip ws t) = node_is d t.
Proof. destruct d, t; reflexivity. Qed.
Lemma seen_cons u post : settled (u :: post) -> seen (u :: post) = strip ws (erase u) :: seen post.
Proof. unfold settled, seen. intros H. cbn [map filter]. now rewrite is_strip, H. Qed.
Lemma seen_ws u post : is_ws (erase u) = true -> seen (u :: post) = seen post.
Proof. unfold seen. intros H. cbn [map filter]. now rewrite is_strip, H. Qed.
Lemma strip_kids a id tok kids : strip ws (erase (LP a id tok kids)) = TProd id tok (seen kids).
Proof.
  cbn [erase strip]. f_equal. unfold seen. apply filter_ext. intros t. unfold is_ws. now destruct ws.
Qed.
Lemma seen_kids u : children_of (strip ws (erase u)) = seen (kids_of u).
Proof. destruct u; [reflexivity|]. rewrite strip_kids. reflexivity. Qed.
Lemma next_seen d post : settled post -> next_is d (seen post) = next_is d (map erase post).
Proof. destruct post as [|u post]; [reflexivity|]. intros H. rewrite seen_cons by exact H. cbn. apply node_strip. Qed.
Lemma try_ok x P post c : At x P post -> settled post -> try_cond m x c = Some (holds c (seen post)).
Proof.
  intros H Hs. destruct c; cbn [try_cond holds]; rewrite ?next_seen by exact Hs; try (eapply At_kind; exact H); try reflexivity.
  destruct H as (_ & _ & ->). destruct post as [|u post]; [reflexivity|]. now rewrite seen_cons.
Qed.

(** ** Whitespace *)
Lemma skip_ok d : ws = Some d -> forall post x P n, At x P post -> length post < n ->
  exists x' post', skip_nodes m n d x = Some x' /\ At x' P post' /\ settled post' /\ seen post' = seen post /\
    here P post <= here P post'.
Proof.
  intros Hd. induction post as [|u post IH]; intros x P n H Hn; (destruct n as [|n]; [cbn in Hn; lia|]); cbn [skip_nodes];
    rewrite (At_kind _ _ _ d H); cbn [map next_is].
  - exists x, []. repeat split; auto; apply H.
  - destruct (node_is d (erase u)) eqn:Eu.
    + destruct (At_bump _ _ _ _ H) as (x1 & E1 & H1). rewrite E1. cbn [length] in Hn.
      destruct (IH x1 P n H1 ltac:(lia)) as (x' & post' & E2 & H2 & H3 & H4 & H5). exists x', post'.
      split; [exact E2|]. split; [exact H2|]. split; [exact H3|].
      assert (Hw : is_ws (erase u) = true) by (unfold is_ws; now rewrite Hd).
      rewrite (seen_ws _ _ Hw). split; [exact H4|]. destruct H as (HP & (pre & E) & _).
      destruct (kid_ranges P pre u post HP E) as (R1 & R2). cbn [here] in *. lia.
    + exists x, (u :: post). split; [reflexivity|]. split; [exact H|]. split; [|split; [reflexivity|lia]].
      unfold settled, is_ws. now rewrite Hd.
Qed.
Lemma post_short x P post : At x P post -> length post < F.
Proof.
  intros (HP & (pre & E) & _). pose proof (sub_nodes _ _ HP) as H1. destruct P as [|a id tok kids].
  - destruct pre, post; try discriminate. cbn. lia.
  - pose proof (kids_nodes a id tok kids) as H2. cbn [kids_of] in E. subst kids. rewrite app_length in H2. lia.
Qed.
Lemma skip_spec x P post l : At x P post -> exists x' post' d, skip m F ws x l = Ok x' (l ++ d) /\
  At x' P post' /\ settled post' /\ seen post' = seen post /\ in_a_row (here P post) (tokens_of d) (here P post') /\ no_errors d.
Proof.
  intros H. unfold skip. destruct ws as [d|] eqn:Ew.
  - destruct (skip_ok d Ew post x P F H (post_short _ _ _ H)) as (x' & post' & E1 & H1 & H2 & H3 & H4).
    rewrite (At_pos _ _ _ H), E1, (At_pos _ _ _ H1). do 3 eexists. split; [reflexivity|].
    rewrite Ew in *. split; [exact H1|]. split; [exact H2|]. split; [exact H3|]. split.
    + cbn. constructor; [exact H4|constructor].
    + intros y [<-|[]]. reflexivity.
  - exists x, post, []. rewrite app_nil_r. split; [reflexivity|]. split; [exact H|]. split.
    + destruct post; [exact I|]. unfold settled, is_ws. now rewrite Ew.
    + split; [reflexivity|]. split; [constructor|apply no_errors_nil].
Qed.

(** ** Soundness *)
Lemma here_le P pre post : Sub lt P -> kids_of P = pre ++ post -> here P post <= fin P.
Proof.
  revert pre. induction post as [|u post IH]; intros pre HP E; [cbn; lia|].
  destruct (kid_ranges P pre u post HP E) as (R1 & R2). cbn [here]. etransitivity; [exact R2|]. rewrite R1.
  apply (IH (pre ++ [u]) HP). now rewrite <- app_assoc.
Qed.
Lemma At_range x P u post : At x P (u :: post) -> fin u = here P post /\ beg u <= fin u.
Proof. intros (HP & (pre & E) & _). eapply kid_ranges; eauto. Qed.

Definition good (r : nrule) (P : ltree) (post : list ltree) (l : list nev) (y : nres) : Prop :=
  match y with
  | Ok x' l' => exists d post', l' = l ++ d /\ At x' P post' /\ settled post' /\
      in_a_row (here P post) (tokens_of d) (here P post') /\
      (no_errors d -> takes prods lexrule r (seen post) (seen post'))
  | Fail x' l' => exists d post', l' = l ++ d /\ At x' P post' /\
      in_a_row (here P post) (tokens_of d) (here P post') /\ ~ no_errors d
  | UB => False
  | NoFuel => True
  end.
Lemma good_imp r r' P post l y : good r P post l y ->
  (forall l', takes prods lexrule r (seen post) l' -> takes prods lexrule r' (seen post) l') -> good r' P post l y.
Proof.
  intros H Hi. destruct y; cbn in *; auto. destruct H as (d & post' & H1 & H2 & H3 & H4 & H5). exists d, post'. repeat (split; auto).
Qed.
Lemma error_there t b e d : ~ no_errors (d ++ [NError t b e]).
Proof. intros H. specialize (H (NError t b e)). rewrite (in_app_iff d) in H. cbn in H. now discriminate (H (or_intror (or_introl eq_refl))). Qed.
Lemma select_ok x P post bs : At x P post -> settled post ->
  match select m x bs with
  | None => False
  | Some None => forallb (fun b => negb (holds (fst b) (seen post))) bs = true
  | Some (Some (c, r)) => exists bs1 bs2, bs = bs1 ++ (c, r) :: bs2 /\
      forallb (fun b => negb (holds (fst b) (seen post))) bs1 = true /\ holds c (seen post) = true
  end.
Proof.
  intros H Hs. induction bs as [|(c, r) bs IH]; [reflexivity|]. cbn [select]. rewrite (try_ok _ _ _ c H Hs).
  destruct (holds c (seen post)) eqn:Eh.
  - exists [], bs. auto.
  - destruct (select m x bs) as [[(c', r')|]|].
    + destruct IH as (bs1 & bs2 & E1 & E2 & E3). exists ((c, r) :: bs1), bs2. split; [now rewrite E1|]. split; [|exact E3].
      cbn. now rewrite Eh, E2.
    + cbn. now rewrite Eh, IH.
    + exact IH.
Qed.

(** Behind a node: the end of the child and the whitespace. *)
Lemma after_ok tag rest q x P u post l d r :
  At x P post -> fin u = here P post ->
  (rest = true -> q = Some (here P post) \/ exists b, q = Some b /\ b <= fin u) ->
  (forall b, rest = true -> q = Some b -> in_a_row (beg u) (tokens_of d) b) ->
  (rest = false -> in_a_row (beg u) (tokens_of d) (fin u)) ->
  (rest = false -> no_errors d -> takes prods lexrule r (seen (u :: post)) (seen post)) ->
  good r P (u :: post) l (after_child m F ws tag rest q x (l ++ d)).
Proof.
  intros H Ef Hq Hd1 Hd2 Ht. unfold after_child. destruct rest.
  - assert (Hb : exists b, q = Some b /\ b <= fin u).
    { destruct (Hq eq_refl) as [->|Hb]; [|exact Hb]. exists (here P post). rewrite Ef. auto. }
    destruct Hb as (b & -> & Hb). rewrite (At_pos _ _ _ H). rewrite <- app_assoc.
    destruct (skip_spec x P post (l ++ d ++ [NToken KError b (here P post); NError tag b (here P post)]) H)
      as (x' & post' & d' & E & H1 & H2 & H3 & H4 & H5). rewrite E. cbn [good].
    exists ((d ++ [NToken KError b (here P post); NError tag b (here P post)]) ++ d'), post'. rewrite !app_assoc in *.
    split; [reflexivity|]. split; [exact H1|]. split; [exact H2|]. split.
    + rewrite !tokens_app. eapply row_join; [|exact H4]. cbn [here]. eapply row_join; [now apply Hd1|].
      cbn. constructor; [lia|constructor].
    + intros Hn. apply no_errors_app in Hn. destruct Hn as (Hn & _). apply no_errors_app in Hn. destruct Hn as (_ & Hn).
      exfalso. specialize (Hn (NError tag b (here P post))). cbn in Hn. discriminate Hn. auto.
  - destruct (skip_spec x P post (l ++ d) H) as (x' & post' & d' & E & H1 & H2 & H3 & H4 & H5). rewrite E. cbn [good].
    exists (d ++ d'), post'. rewrite app_assoc. split; [reflexivity|]. split; [exact H1|]. split; [exact H2|]. split.
    + rewrite tokens_app. cbn [here]. eapply row_join; [now apply Hd2|]. now rewrite Ef.
    + intros Hn. apply no_errors_app in Hn. rewrite H3. now apply Ht.
Qed.
Lemma failed_ok q x P u post l d b r :
  At x P post -> fin u = here P post -> q = Some b -> b <= fin u -> in_a_row (beg u) (tokens_of d) b -> ~ no_errors d ->
  good r P (u :: post) l (child_failed m F q x (l ++ d)).
Proof.
  intros H Ef -> Hb Hd Hn. unfold child_failed. rewrite (At_pos _ _ _ H). cbn [good].
  exists (d ++ [NToken KError b (here P post)]), post. rewrite app_assoc. split; [reflexivity|]. split; [exact H|]. split.
  - rewrite tokens_app. cbn [here]. eapply row_join; [exact Hd|]. cbn. constructor; [lia|constructor].
  - intros Hx. apply no_errors_app in Hx. now destruct Hx.
Qed.
Lemma at_end x P post : At x P post -> r_cur x = None <-> post = [].
Proof. intros (_ & _ & ->). destruct post; cbn; split; congruence. Qed.

Lemma fail_here x P post r l d : At x P post -> in_a_row (here P post) (tokens_of d) (here P post) -> ~ no_errors d ->
  good r P post l (Fail x (l ++ d)).
Proof. intros H1 H2 H3. cbn. exists d, post. auto. Qed.

Theorem run_sound fuel : forall r x P post l, At x P post -> settled post ->
  good r P post l (run m F prods ws lexrule fuel r x l).
Proof.
  induction fuel as [|fuel IH]; intros r x P post l H Hs; [exact I|].
  assert (Hseq : forall r1 r2 x P post l, At x P post -> settled post ->
    good (RSeq r1 r2) P post l (match run m F prods ws lexrule fuel r1 x l with
                                | Ok x l => run m F prods ws lexrule fuel r2 x l | y => y end)).
  { clear r x P post l H Hs. intros r1 r2 x P post l H Hs. pose proof (IH r1 x P post l H Hs) as H1.
    destruct (run m F prods ws lexrule fuel r1 x l) as [x1 l1|x1 l1| |]; cbn [good] in H1 |- *; try exact H1.
    destruct H1 as (d1 & post1 & -> & A1 & S1 & R1 & T1). pose proof (IH r2 x1 P post1 (l ++ d1) A1 S1) as H2.
    destruct (run m F prods ws lexrule fuel r2 x1 (l ++ d1)) as [x2 l2|x2 l2| |]; cbn [good] in H2 |- *; try exact H2.
    - destruct H2 as (d2 & post2 & -> & A2 & S2 & R2 & T2). exists (d1 ++ d2), post2. rewrite app_assoc. split; [reflexivity|].
      split; [exact A2|]. split; [exact S2|]. split; [rewrite tokens_app; eapply row_join; eauto|].
      intros Hn. apply no_errors_app in Hn. destruct Hn. econstructor; eauto.
    - destruct H2 as (d2 & post2 & -> & A2 & R2 & N2). exists (d1 ++ d2), post2. rewrite app_assoc. split; [reflexivity|].
      split; [exact A2|]. split; [rewrite tokens_app; eapply row_join; eauto|].
      intros Hn. apply no_errors_app in Hn. now destruct Hn. }
  destruct r as [|d|k i|id r|r1 r2|bs|c r|c r| |p]; cbn [run].
  - exists [], post. rewrite app_nil_r. split; [reflexivity|]. split; [exact H|]. split; [exact Hs|].
    split; [constructor|constructor].
  - rewrite (At_pos _ _ _ H), (At_kind _ _ _ d H). destruct (next_is d (map erase post)) eqn:Ek.
    + destruct post as [|u post]; [discriminate|]. cbn [map next_is] in Ek.
      destruct (At_bump _ _ _ _ H) as (x1 & E1 & H1). rewrite E1, (At_pos _ _ _ H1).
      destruct (At_range _ _ _ _ H) as (Ef & Hle).
      apply (after_ok TagProductionEnd false None x1 P u post l [NToken (rule_kind d) (here P (u :: post)) (here P post)]); auto;
        try discriminate.
      * intros _. cbn. rewrite <- Ef. constructor; [exact Hle|constructor].
      * intros _ _. rewrite seen_cons by exact Hs. constructor. now rewrite node_strip.
    + apply fail_here; [exact H| |].
      * cbn. constructor; [lia|constructor].
      * apply (error_there _ _ _ [_]).
  - rewrite (At_kind _ _ _ _ H). destruct (next_is (NTok k) (map erase post)) eqn:Ek.
    2: { rewrite (At_pos _ _ _ H). apply fail_here; [exact H|constructor|apply (error_there _ _ _ [])]. }
    destruct post as [|u post]; [discriminate|]. cbn [map next_is] in Ek. destruct u as [a k' b e|]; [|discriminate].
    rewrite (At_lexeme _ _ _ _ _ _ _ H). destruct (At_bump _ _ _ _ H) as (x1 & E1 & H1). rewrite E1.
    destruct (At_range _ _ _ _ H) as (Ef & Hle). cbn [beg fin erase leaves first_begin last_end] in Ef, Hle.
    change (beg (LT a k' b e)) with b in Hle. change (fin (LT a k' b e)) with e in Ef, Hle.
    destruct (lexrule i b e) as [[ok q] d] eqn:El. destruct (Hlex i b e ok q d Hle El) as (L1 & L2 & L3).
    set (w := match ws with Some _ => [NToken KWhitespace b b] | None => [] end).
    assert (Hw : in_a_row b (tokens_of w) b /\ no_errors w).
    { unfold w. destruct ws; split; [constructor; [lia|constructor]|intros y [<-|[]]; reflexivity|constructor|apply no_errors_nil]. }
    destruct Hw as (W1 & W2).
    assert (Hall : in_a_row b (tokens_of (w ++ d)) q) by (rewrite tokens_app; eapply row_join; eauto).
    rewrite <- app_assoc. destruct ok.
    + apply (after_ok TagTokenEnd (negb (q =? e)) (Some q) x1 P (LT a k' b e) post l (w ++ d)); auto.
      * intros _. right. exists q. auto.
      * intros b' _ [= <-]. exact Hall.
      * intros Eq. apply Bool.negb_false_iff, Nat.eqb_eq in Eq. subst q. exact Hall.
      * intros Eq Hn. apply Bool.negb_false_iff, Nat.eqb_eq in Eq. subst q. rewrite seen_cons by exact Hs. cbn [erase strip].
        constructor; [exact Ek|]. exists d. split; [exact El|]. apply no_errors_app in Hn. apply Hn.
    + apply (failed_ok (Some q) x1 P (LT a k' b e) post l (w ++ d) q); auto.
      intros Hn. apply no_errors_app in Hn. now apply (L3 eq_refl).
  - rewrite (At_kind _ _ _ _ H). destruct (next_is (NProd id) (map erase post)) eqn:Ek.
    2: { rewrite (At_pos _ _ _ H). apply fail_here; [exact H|constructor|apply (error_there _ _ _ [])]. }
    destruct post as [|u post]; [discriminate|]. cbn [map next_is] in Ek.
    destruct (At_child _ _ _ _ H) as (c & Ec & Hc). rewrite Ec. destruct (At_bump _ _ _ _ H) as (x1 & E1 & H1). rewrite E1.
    destruct (At_range _ _ _ _ H) as (Ef & Hle).
    destruct (skip_spec c u (kids_of u) l Hc) as (c1 & k1 & d1 & E2 & C1 & C2 & C3 & C4 & C5). rewrite E2.
    assert (Hb : here u (kids_of u) = beg u).
    { apply kids_begin; [exact (At_head _ _ _ _ H)|]. destruct u as [|a id' tok kids]; [discriminate|].
      pose proof (Sub_full _ _ Hfull (At_head _ _ _ _ H)) as Hf. cbn in Hf. intros E. cbn in E. subst kids. discriminate. }
    rewrite Hb in C4.
    pose proof (IH r c1 u k1 (l ++ d1) C1 C2) as HR.
    destruct (run m F prods ws lexrule fuel r c1 (l ++ d1)) as [c2 l2|c2 l2| |]; cbn [good] in HR; try exact HR.
    + destruct HR as (d2 & k2 & -> & A2 & S2 & R2 & T2). rewrite <- app_assoc.
      assert (Hall : in_a_row (beg u) (tokens_of (d1 ++ d2)) (here u k2)) by (rewrite tokens_app; eapply row_join; eauto).
      destruct (r_cur c2) as [z|] eqn:Ez.
      * apply (after_ok TagProductionEnd true (pos m F c2) x1 P u post l (d1 ++ d2)); auto; try discriminate.
        -- intros _. right. exists (here u k2). split; [eapply At_pos; exact A2|]. destruct A2 as (A & (pre & E) & _).
           eapply here_le; eauto.
        -- intros b _. rewrite (At_pos _ _ _ A2). intros [= <-]. exact Hall.
      * apply (at_end _ _ _ A2) in Ez. subst k2. cbn [here] in Hall.
        apply (after_ok TagProductionEnd false None x1 P u post l (d1 ++ d2)); auto; try discriminate.
        intros _ Hn. apply no_errors_app in Hn. destruct Hn as (_ & Hn). specialize (T2 Hn). rewrite C3 in T2.
        rewrite seen_cons by exact Hs. destruct u as [|a id' tok kids]; [discriminate|]. rewrite strip_kids.
        cbn in Ek. apply Nat.eqb_eq in Ek. subst id'. constructor. exact T2.
    + destruct HR as (d2 & k2 & -> & A2 & R2 & N2). rewrite <- app_assoc.
      apply (failed_ok (pos m F c2) x1 P u post l (d1 ++ d2) (here u k2)); auto.
      * eapply At_pos; exact A2.
      * destruct A2 as (A & (pre & E) & _). eapply here_le; eauto.
      * rewrite tokens_app; eapply row_join; eauto.
      * intros Hn. apply no_errors_app in Hn. now destruct Hn.
  - now apply Hseq.
  - pose proof (select_ok x P post bs H Hs) as HS. destruct (select m x bs) as [[(c, r)|]|].
    + destruct HS as (bs1 & bs2 & -> & F1 & F2). eapply good_imp; [now apply IH|]. intros l' Ht. now constructor.
    + rewrite (At_pos _ _ _ H). apply fail_here; [exact H|constructor|apply (error_there _ _ _ [])].
    + destruct HS.
  - rewrite (try_ok _ _ _ c H Hs). destruct (holds c (seen post)) eqn:Eh.
    + eapply good_imp; [now apply IH|]. intros l' Ht. now constructor.
    + exists [], post. rewrite app_nil_r. split; [reflexivity|]. split; [exact H|]. split; [exact Hs|].
      split; [constructor|intros _; now apply takes_no_opt].
  - rewrite (try_ok _ _ _ c H Hs). destruct (holds c (seen post)) eqn:Eh.
    + eapply good_imp; [now apply IH|]. intros l' Ht. inversion Ht; subst. eapply takes_while; eauto.
    + exists [], post. rewrite app_nil_r. split; [reflexivity|]. split; [exact H|]. split; [exact Hs|].
      split; [constructor|intros _; now apply takes_no_while].
  - rewrite (At_pos _ _ _ H). destruct (r_cur x) as [z|] eqn:Ez.
    + exists [NError TagEof (here P post) (here P post)], post. split; [reflexivity|]. split; [exact H|]. split; [exact Hs|].
      split; [constructor|]. intros Hn. exfalso. exact (error_there _ _ _ [] Hn).
    + apply (at_end _ _ _ H) in Ez. subst post. exists [NToken KEof (here P []) (here P [])], [].
      split; [reflexivity|]. split; [exact H|]. split; [exact I|]. split; [cbn; constructor; [lia|constructor]|]. intros _. constructor.
  - rewrite (At_pos _ _ _ H). pose proof (IH (prods p) x P post (l ++ [NStart p (here P post)]) H Hs) as HR.
    destruct (run m F prods ws lexrule fuel (prods p) x _) as [x2 l2|x2 l2| |]; cbn [good] in HR; try exact HR.
    + destruct HR as (d2 & k2 & -> & A2 & S2 & R2 & T2). rewrite (At_pos _ _ _ A2). rewrite <- !app_assoc.
      exists ([NStart p (here P post)] ++ d2 ++ [NFinish p (here P k2)]), k2. split; [reflexivity|].
      split; [exact A2|]. split; [exact S2|]. split.
      * rewrite !tokens_app. cbn. now rewrite app_nil_r.
      * intros Hn. constructor. apply T2. apply no_errors_app in Hn. destruct Hn as (_ & Hn). apply no_errors_app in Hn. apply Hn.
    + destruct HR as (d2 & k2 & -> & A2 & R2 & N2). rewrite (At_pos _ _ _ A2). rewrite <- !app_assoc.
      exists ([NStart p (here P post)] ++ d2 ++ [NCancel p (here P k2)]), k2. split; [reflexivity|].
      split; [exact A2|]. split.
      * rewrite !tokens_app. cbn. now rewrite app_nil_r.
      * intros Hn. apply N2. apply no_errors_app in Hn. destruct Hn as (_ & Hn). apply no_errors_app in Hn. apply Hn.
Qed.

(** ** Completeness *)
Lemma seen_head post t l : settled post -> seen post = t :: l ->
  exists u post1, post = u :: post1 /\ strip ws (erase u) = t /\ seen post1 = l.
Proof.
  destruct post as [|u post]; [discriminate|]. intros Hs. rewrite seen_cons by exact Hs. intros [= <- <-]. eauto.
Qed.
Lemma seen_empty post : settled post -> seen post = [] -> post = [].
Proof. destruct post as [|u post]; [reflexivity|]. intros Hs. rewrite seen_cons by exact Hs. discriminate. Qed.

Lemma select_holds x P post bs1 c r bs2 : At x P post -> settled post ->
  forallb (fun b => negb (holds (fst b) (seen post))) bs1 = true -> holds c (seen post) = true ->
  select m x (bs1 ++ (c, r) :: bs2) = Some (Some (c, r)).
Proof.
  intros H Hs H1 H2. induction bs1 as [|(c', r') bs1 IH]; cbn [app select].
  - now rewrite (try_ok _ _ _ c H Hs), H2.
  - cbn in H1. apply andb_prop in H1. destruct H1 as (H3 & H1). rewrite (try_ok _ _ _ c' H Hs).
    apply Bool.negb_true_iff in H3. rewrite H3. now apply IH.
Qed.

Definition done (r : nrule) (x : reader) (P : ltree) (l : list nev) (left : list ptree) : Prop :=
  exists n x' d post', (forall fuel, n <= fuel -> run m F prods ws lexrule fuel r x l = Ok x' (l ++ d)) /\
    no_errors d /\ At x' P post' /\ settled post' /\ seen post' = left.

Theorem run_complete r L left : takes prods lexrule r L left -> forall x P post l, At x P post -> settled post -> seen post = L ->
  done r x P l left.
Proof.
  induction 1 as [L|d t L Hk|k k' i b e L Hk Hm|id tok kids r L Ht IH|r1 r2 L L1 L2 H1 IH1 H2 IH2
    |bs1 c r bs2 L L' Hf Hh Ht IH|c r L L' Hh Ht IH|c r L Hh|c r L L1 L2 Hh Ht IH Ht2 IH2|c r L Hh| |p L L' Ht IH];
    intros x P post l H Hs HL.
  - exists 1, x, [], post. rewrite app_nil_r. split; [|split; [apply no_errors_nil|auto]]. intros [|fuel] Hn; [lia|reflexivity].
  - destruct (seen_head _ _ _ Hs HL) as (u & post1 & -> & Eu & El).
    destruct (At_bump _ _ _ _ H) as (x1 & E1 & A1).
    destruct (skip_spec x1 P post1 (l ++ [NToken (rule_kind d) (here P (u :: post1)) (here P post1)]) A1)
      as (x2 & post2 & d2 & E2 & A2 & S2 & V2 & _ & N2).
    exists 1, x2, ([NToken (rule_kind d) (here P (u :: post1)) (here P post1)] ++ d2), post2. split.
    + intros [|fuel] Hn; [lia|]. cbn [run]. rewrite (At_pos _ _ _ H), (At_kind _ _ _ d H). cbn [map next_is].
      rewrite <- node_strip, Eu, Hk, E1, (At_pos _ _ _ A1), E2. now rewrite app_assoc.
    + split; [apply no_errors_app; split; [intros y [<-|[]]; reflexivity|exact N2]|]. rewrite V2. auto.
  - destruct (seen_head _ _ _ Hs HL) as (u & post1 & -> & Eu & El). destruct u as [a k2 b2 e2|]; [|discriminate].
    cbn [erase strip] in Eu. injection Eu as -> -> ->. destruct Hm as (d & Ed & Nd).
    destruct (At_bump _ _ _ _ H) as (x1 & E1 & A1).
    set (w := match ws with Some _ => [NToken KWhitespace b b] | None => [] end).
    assert (Hw : no_errors w). { unfold w. destruct ws; [intros y [<-|[]]; reflexivity|apply no_errors_nil]. }
    destruct (skip_spec x1 P post1 ((l ++ w) ++ d) A1) as (x2 & post2 & d2 & E2 & A2 & S2 & V2 & _ & N2).
    exists 1, x2, (w ++ d ++ d2), post2. split.
    + intros [|fuel] Hn; [lia|]. cbn [run]. rewrite (At_kind _ _ _ _ H). cbn [map next_is erase node_is]. rewrite Hk.
      rewrite (At_lexeme _ _ _ _ _ _ _ H), E1, Ed. rewrite Nat.eqb_refl. cbn [negb after_child]. fold w. rewrite E2.
      now rewrite !app_assoc.
    + split; [rewrite !no_errors_app; auto|]. rewrite V2. auto.
  - destruct (seen_head _ _ _ Hs HL) as (u & post1 & -> & Eu & El). destruct u as [|a id2 tok2 kids2]; [discriminate|].
    rewrite strip_kids in Eu. injection Eu as -> -> Ek.
    destruct (At_child _ _ _ _ H) as (c & Ec & Hc). destruct (At_bump _ _ _ _ H) as (x1 & E1 & A1).
    destruct (skip_spec c _ _ l Hc) as (c1 & k1 & d1 & E2 & C1 & C2 & C3 & _ & C5).
    destruct (IH c1 _ k1 (l ++ d1) C1 C2) as (n & c2 & d2 & k2 & R & N2 & A2 & S2 & V2); [cbn [kids_of] in C3; congruence|].
    pose proof (seen_empty _ S2 V2) as ->. apply (at_end _ _ _ A2) in V2 || pose proof (proj2 (at_end _ _ _ A2) eq_refl) as V3.
    destruct (skip_spec x1 P post1 ((l ++ d1) ++ d2) A1) as (x2 & post2 & d3 & E3 & A3 & S3 & W3 & _ & N3).
    exists (S n), x2, (d1 ++ d2 ++ d3), post2. split.
    + intros [|fuel] Hn; [lia|]. cbn [run]. rewrite (At_kind _ _ _ _ H). cbn [map next_is erase node_is]. rewrite Nat.eqb_refl.
      rewrite Ec, E1, E2, R by lia. rewrite V3. cbn [after_child]. rewrite E3. now rewrite !app_assoc.
    + split; [rewrite !no_errors_app; auto|]. rewrite W3. auto.
  - destruct (IH1 x P post l H Hs HL) as (n1 & x1 & d1 & post1 & R1 & N1 & A1 & S1 & V1).
    destruct (IH2 x1 P post1 (l ++ d1) A1 S1 V1) as (n2 & x2 & d2 & post2 & R2 & N2 & A2 & S2 & V2).
    exists (S (n1 + n2)), x2, (d1 ++ d2), post2. split.
    + intros [|fuel] Hn; [lia|]. cbn [run]. rewrite R1, R2 by lia. now rewrite app_assoc.
    + split; [now apply no_errors_app|auto].
  - subst L. destruct (IH x P post l H Hs eq_refl) as (n & x1 & d1 & post1 & R & N1 & A1 & S1 & V1). exists (S n), x1, d1, post1. split; [|auto].
    intros [|fuel] Hn; [lia|]. cbn [run]. rewrite (select_holds _ _ _ _ _ _ _ H Hs Hf Hh). apply R. lia.
  - subst L. destruct (IH x P post l H Hs eq_refl) as (n & x1 & d1 & post1 & R & N1 & A1 & S1 & V1). exists (S n), x1, d1, post1. split; [|auto].
    intros [|fuel] Hn; [lia|]. cbn [run]. rewrite (try_ok _ _ _ c H Hs), Hh. apply R. lia.
  - subst L. exists 1, x, [], post. rewrite app_nil_r. split; [|split; [apply no_errors_nil|auto]].
    intros [|fuel] Hn; [lia|]. cbn [run]. now rewrite (try_ok _ _ _ c H Hs), Hh.
  - subst L. destruct (IH x P post l H Hs eq_refl) as (n1 & x1 & d1 & post1 & R1 & N1 & A1 & S1 & V1).
    destruct (IH2 x1 P post1 (l ++ d1) A1 S1 V1) as (n2 & x2 & d2 & post2 & R2 & N2 & A2 & S2 & V2).
    exists (S (S (n1 + n2))), x2, (d1 ++ d2), post2. split.
    + intros [|[|fuel]] Hn; [lia|lia|]. cbn [run]. rewrite (try_ok _ _ _ c H Hs), Hh. fold (run m F prods ws lexrule).
      rewrite (R1 fuel ltac:(lia)). rewrite (R2 fuel ltac:(lia)). now rewrite app_assoc.
    + split; [now apply no_errors_app|auto].
  - subst L. exists 1, x, [], post. rewrite app_nil_r. split; [|split; [apply no_errors_nil|auto]].
    intros [|fuel] Hn; [lia|]. cbn [run]. now rewrite (try_ok _ _ _ c H Hs), Hh.
  - pose proof (seen_empty _ Hs HL) as ->. pose proof (proj2 (at_end _ _ _ H) eq_refl) as V3.
    exists 1, x, [NToken KEof (here P []) (here P [])], []. split; [|split; [intros y [<-|[]]; reflexivity|auto]].
    intros [|fuel] Hn; [lia|]. cbn [run]. now rewrite (At_pos _ _ _ H), V3.
  - destruct (IH x P post (l ++ [NStart p (here P post)]) H Hs HL) as (n & x1 & d1 & post1 & R & N1 & A1 & S1 & V1).
    exists (S n), x1, ([NStart p (here P post)] ++ d1 ++ [NFinish p (here P post1)]), post1. split.
    + intros [|fuel] Hn; [lia|]. cbn [run]. rewrite (At_pos _ _ _ H), R by lia. rewrite (At_pos _ _ _ A1). now rewrite !app_assoc.
    + split; [rewrite !no_errors_app; repeat split; auto; intros y [<-|[]]; reflexivity|auto].
Qed.

(** ** The action *)
Lemma open_ok s : Sub lt s -> exists x, open_reader m (Some (la s)) = Some x /\ At x s (kids_of s).
Proof.
  intros Hs. exists (Rd (la s) (hda (kids_of s))). split.
  - unfold open_reader, n_first_child.
    pose proof (node_rep _ _ _ _ _ HW _ Hs) as Hr. rewrite (head_type m _ Hr). destruct s as [|a id tok kids]; [reflexivity|].
    cbn [la]. now rewrite (first_child_ok m _ _ _ _ Hr).
  - split; [exact Hs|]. split; [exists []; reflexivity|reflexivity].
Qed.
Lemma visible_seen l : visible ws (map erase l) = seen l.
Proof. unfold visible, seen. apply filter_ext. intros t. unfold is_ws. now destruct ws. Qed.
Definition start_of (s : ltree) : nat := here s (kids_of s).

Theorem reparse_sound fuel p s : Sub lt s ->
  match reparse m F prods ws lexrule fuel p (Some (la s)) with
  | Ok x l => exists pre post, kids_of s = pre ++ post /\ r_parent x = la s /\ r_cur x = hda post /\ pos m F x = Some (here s post) /\
      in_a_row (start_of s) (tokens_of l) (here s post) /\
      (no_errors l -> takes prods lexrule (prods p) (children_of (strip ws (erase s))) (visible ws (map erase post)))
  | Fail x l => exists q, pos m F x = Some q /\ in_a_row (start_of s) (tokens_of l) q /\ ~ no_errors l
  | UB => False
  | NoFuel => True
  end.
Proof.
  intros Hs. destruct (open_ok s Hs) as (x & Ex & Ax). unfold reparse. rewrite Ex, (At_pos _ _ _ Ax).
  destruct (skip_spec x s (kids_of s) [NStart p (here s (kids_of s))] Ax) as (x1 & post1 & d1 & E1 & A1 & S1 & V1 & R1 & N1). rewrite E1.
  pose proof (run_sound fuel (prods p) x1 s post1 ([NStart p (here s (kids_of s))] ++ d1) A1 S1) as HR.
  destruct (run m F prods ws lexrule fuel (prods p) x1 _) as [x2 l2|x2 l2| |]; cbn [good] in HR; try exact HR.
  - destruct HR as (d2 & post2 & -> & A2 & S2 & R2 & T2). rewrite (At_pos _ _ _ A2).
    pose proof A2 as (_ & (pre & E) & Ex2). exists pre, post2. split; [exact E|]. split; [now rewrite Ex2|]. split; [now rewrite Ex2|].
    split; [exact (At_pos _ _ _ A2)|]. split.
    + rewrite !tokens_app. cbn [tokens_of flat_map token_of app]. rewrite app_nil_r. fold (tokens_of d1). eapply row_join; eauto.
    + intros Hn. rewrite !no_errors_app in Hn. rewrite seen_kids, visible_seen, <- V1. apply T2. tauto.
  - destruct HR as (d2 & post2 & -> & A2 & R2 & N2). rewrite (At_pos _ _ _ A2). exists (here s post2).
    split; [exact (At_pos _ _ _ A2)|]. split.
    + rewrite !tokens_app. cbn [tokens_of flat_map token_of app]. rewrite app_nil_r. fold (tokens_of d1). eapply row_join; eauto.
    + intros Hn. rewrite !no_errors_app in Hn. tauto.
Qed.
Theorem reparse_complete p s left : Sub lt s -> takes prods lexrule (prods p) (children_of (strip ws (erase s))) left ->
  exists n x l, (forall fuel, n <= fuel -> reparse m F prods ws lexrule fuel p (Some (la s)) = Ok x l) /\ no_errors l /\
    exists pre post, kids_of s = pre ++ post /\ r_cur x = hda post /\ visible ws (map erase post) = left.
Proof.
  intros Hs Ht. destruct (open_ok s Hs) as (x & Ex & Ax).
  destruct (skip_spec x s (kids_of s) [NStart p (here s (kids_of s))] Ax) as (x1 & post1 & d1 & E1 & A1 & S1 & V1 & R1 & N1).
  rewrite seen_kids, <- V1 in Ht.
  destruct (run_complete _ _ _ Ht x1 s post1 ([NStart p (here s (kids_of s))] ++ d1) A1 S1 eq_refl)
    as (n & x2 & d2 & post2 & R2 & N2 & A2 & S2 & V2).
  exists n, x2, ((([NStart p (here s (kids_of s))] ++ d1) ++ d2) ++ [NFinish p (here s post2)]). split.
  - intros fuel Hf. unfold reparse. rewrite Ex, (At_pos _ _ _ Ax), E1, R2 by exact Hf. now rewrite (At_pos _ _ _ A2).
  - split; [rewrite !no_errors_app; repeat split; auto; intros y [<-|[]]; reflexivity|].
    destruct A2 as (_ & (pre & E) & ->). exists pre, post2. rewrite visible_seen. auto.
Qed.
End Nd.
