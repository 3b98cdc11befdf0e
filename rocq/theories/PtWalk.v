(** Moving around in a finished tree gives what the tree says. *)
From Verif Require Import Prelude RuleModel PtModel PtSpec PtMem PtNav.
Close Scope N_scope.


Lemma Sub_trans t s u : Sub t s -> Sub s u -> Sub t u.
Proof. induction 1; auto. intros. econstructor; eauto. Qed.
Lemma Sub_child t a id tok kids k : Sub t (LP a id tok kids) -> In k kids -> Sub t k.
Proof. intros H Hk. eapply Sub_trans; [exact H|]. econstructor; [exact Hk|constructor]. Qed.

Lemma Sub_cases t s : Sub t s -> s = t \/ exists a id tok pre post, Sub t (LP a id tok (pre ++ s :: post)).
Proof.
  induction 1 as [t|a id tok kids k s Hk Hs IH]; [auto|right]. destruct IH as [->|(a' & id' & tok' & pre & post & H)].
  - destruct (in_split _ _ Hk) as (pre & post & ->). exists a, id, tok, pre, post. constructor.
  - exists a', id', tok', pre, post. econstructor; eauto.
Qed.

Lemma Sub_rep m t s : Sub t s -> rep m t -> rep m s.
Proof.
  induction 1 as [t|a id tok kids k s Hk Hs IH]; auto. intros H. apply IH. apply rep_prod in H.
  destruct H as (_ & _ & _ & _ & _ & _ & H). rewrite Forall_forall in H. auto.
Qed.
Lemma kid_fp a id tok kids : incl (fps kids) (fp (LP a id tok kids)).
Proof. intros w Hw. cbn [fp]. apply in_or_app. right. apply in_or_app. now right. Qed.
Lemma Sub_fp t s : Sub t s -> incl (fp s) (fp t).
Proof.
  induction 1 as [t|a id tok kids k s Hk Hs IH]; [apply incl_refl|].
  intros w Hw. apply kid_fp. apply (fps_in k); auto.
Qed.
Lemma NoDup_fps_in l t : In t l -> NoDup (fps l) -> NoDup (fp t).
Proof.
  intros Hi H. destruct (in_split _ _ Hi) as (p & q & ->). rewrite fps_app in H. apply NoDup_app_inv in H.
  destruct H as (_ & H & _). cbn [fps flat_map] in H. now apply NoDup_app_inv in H.
Qed.
Lemma kids_nodup a id tok kids : NoDup (fp (LP a id tok kids)) -> NoDup (fps kids) /\ ~ In a (fps kids).
Proof.
  cbn [fp]. intros H. apply NoDup_app_inv in H. destruct H as (_ & H & Hd). apply NoDup_app_inv in H. destruct H as (_ & H & _).
  split; [exact H|]. intros Hi. apply (Hd a); [now left|]. apply in_or_app. now right.
Qed.
Lemma Sub_nodup t s : Sub t s -> NoDup (fp t) -> NoDup (fp s).
Proof.
  induction 1 as [t|a id tok kids k s Hk Hs IH]; auto. intros H. apply kids_nodup in H. apply IH. eapply NoDup_fps_in; eauto. apply H.
Qed.

(** The link of a child. *)
Lemma child_link m a id tok pre s post : rep m (LP a id tok (pre ++ s :: post)) ->
  exists ty, m (la s) = match post with [] => WLink (Some a) ty true | u :: _ => WLink (Some (la u)) ty false end.
Proof.
  rewrite rep_prod. intros (_ & _ & _ & _ & Hc & Hl & _). destruct post as [|u post].
  - apply (Hl (la s)). apply lsta_snoc.
  - revert Hc. clear. induction pre as [|x pre IH]; cbn [app].
    + intros [H _]. exact H.
    + intros H. apply IH. destruct (pre ++ s :: u :: post) eqn:E; [destruct pre; discriminate|]. apply H.
Qed.

Section Walk.
Variables (m : memory) (lt : ltree) (eof : addr) (bp ep : nat).
Hypothesis HW : Whole m lt eof bp ep.

Lemma node_rep s : Sub lt s -> rep m s.
Proof. intros H. eapply Sub_rep; [exact H|apply (W_rep _ _ _ _ _ HW)]. Qed.
Lemma node_fp s : Sub lt s -> NoDup (fp s).
Proof. intros H. eapply Sub_nodup; [exact H|apply (W_nodup _ _ _ _ _ HW)]. Qed.

Lemma node_link s : Sub lt s -> exists n ty r, m (la s) = WLink (Some n) ty r /\ (s <> lt -> next_node m n <> Some None).
Proof.
  intros H. destruct (Sub_cases _ _ H) as [->|(a & id & tok & pre & post & Hp)].
  - rewrite (W_root _ _ _ _ _ HW). eexists _, _, _. split; [reflexivity|]. intros E. now elim E.
  - destruct (child_link _ _ _ _ _ _ _ (node_rep _ Hp)) as (ty & E).
    assert (Hn : forall q, Sub lt q -> next_node m (la q) <> Some None).
    { intros q Hq. destruct (Sub_cases _ _ Hq) as [->|(a' & id' & tok' & pre' & post' & Hp')].
      - unfold next_node. now rewrite (W_root _ _ _ _ _ HW).
      - destruct (child_link _ _ _ _ _ _ _ (node_rep _ Hp')) as (ty' & E'). unfold next_node. rewrite E'. now destruct post'. }
    destruct post as [|u post]; eexists _, _, _; (split; [exact E|]); intros _.
    + apply (Hn _ Hp).
    + apply (Hn u). eapply Sub_child; [exact Hp|]. apply in_or_app. right. right. now left.
Qed.

(** Different nodes have different addresses. *)
Lemma la_inj_kids l s u : NoDup (fps l) -> In s l -> In u l -> la s = la u -> s = u.
Proof.
  intros Hn Hs Hu E. destruct (in_split _ _ Hs) as (p & q & ->). rewrite fps_app in Hn. cbn [fps flat_map] in Hn.
  apply in_app_or in Hu. destruct Hu as [Hu|[Hu|Hu]]; [|auto|].
  - exfalso. apply NoDup_app_inv in Hn. destruct Hn as (_ & _ & Hn). apply (Hn (la s)).
    + rewrite E. apply (fps_in u); auto. apply fp_la.
    + apply in_or_app. left. apply fp_la.
  - exfalso. apply NoDup_app_inv in Hn. destruct Hn as (_ & Hn & _). apply NoDup_app_inv in Hn. destruct Hn as (_ & _ & Hn).
    apply (Hn (la s)); [apply fp_la|]. rewrite E. apply (fps_in u); auto. apply fp_la.
Qed.
Lemma root_la s : Sub lt s -> la s = la lt -> s = lt.
Proof.
  intros H E. destruct (W_prod _ _ _ _ _ HW) as (a & id & tok & kids & Hlt). rewrite Hlt in *.
  inversion H as [|a' id' tok' kids' k s' Hk Hs]; subst; [reflexivity|exfalso].
  pose proof (W_nodup _ _ _ _ _ HW) as Hn. apply kids_nodup in Hn. destruct Hn as (_ & Hn). apply Hn.
  cbn [la] in E. rewrite <- E. apply (fps_in k); auto. apply (Sub_fp _ _ Hs), fp_la.
Qed.

Lemma root_iff s : Sub lt s -> is_root m (la s) = Some (if addr_dec (la s) (la lt) then true else false).
Proof.
  intros H. destruct (node_link s H) as (n & ty & r & E & Hn). unfold is_root. unfold next_node at 1. rewrite E.
  destruct (addr_dec (la s) (la lt)) as [Ha|Ha].
  - rewrite Ha, (W_root _ _ _ _ _ HW) in E. injection E as <- <- <-. unfold next_node. rewrite (W_eof_link _ _ _ _ _ HW). reflexivity.
  - assert (Hs : s <> lt) by congruence. specialize (Hn Hs).
    destruct (Sub_cases _ _ H) as [->|(a & id & tok & pre & post & Hp)]; [congruence|].
    destruct (child_link _ _ _ _ _ _ _ (node_rep _ Hp)) as (ty' & E'). rewrite E in E'.
    assert (Hx : exists n', next_node m n = Some (Some n')).
    { destruct post as [|u post]; injection E' as -> _ _.
      - destruct (node_link _ Hp) as (n' & ty2 & r2 & E2 & _). cbn [la] in E2. unfold next_node. rewrite E2. eauto.
      - destruct (node_link u) as (n' & ty2 & r2 & E2 & _).
        { eapply Sub_child; [exact Hp|]. apply in_or_app. right. right. now left. }
        unfold next_node. rewrite E2. eauto. }
    destruct Hx as (n' & ->). reflexivity.
Qed.

(** *** parent *)
Lemma up_ok a id tok pre s post fuel : Sub lt (LP a id tok (pre ++ s :: post)) ->
  length post < fuel -> up fuel m (la s) = Some a.
Proof.
  revert pre s fuel. induction post as [|u post IH]; intros pre s fuel Hp Hf; (destruct fuel as [|fuel]; [lia|]);
    destruct (child_link _ _ _ _ _ _ _ (node_rep _ Hp)) as (ty & E); cbn [up]; unfold link_of; rewrite E; auto.
  apply (IH (pre ++ [s])); [|cbn in Hf; lia]. now rewrite <- app_assoc.
Qed.

Lemma child_not_root a id tok pre s post : Sub lt (LP a id tok (pre ++ s :: post)) -> la s <> la lt.
Proof.
  intros Hp E. assert (Hs : Sub lt s) by (eapply Sub_child; [exact Hp|apply in_or_app; right; now left]).
  pose proof (root_la _ Hs E) as ->. pose proof (Sub_fp _ _ Hp) as Hi. pose proof (node_fp _ Hp) as Hn.
  apply kids_nodup in Hn. destruct Hn as (_ & Hn). apply Hn.
  assert (Ha : In a (fp lt)) by (apply Hi; apply (fp_la (LP a id tok (pre ++ lt :: post)))).
  apply (fps_in lt); [apply in_or_app; right; now left|exact Ha].
Qed.

Theorem parent_ok a id tok pre s post fuel : Sub lt (LP a id tok (pre ++ s :: post)) ->
  length post < fuel -> parent fuel m (la s) = Some a.
Proof.
  intros Hp Hf. unfold parent. rewrite (root_iff s) by (eapply Sub_child; [exact Hp|apply in_or_app; right; now left]).
  destruct (addr_dec _ _) as [E|_]; [exfalso; eapply child_not_root; eauto|]. eapply up_ok; eauto.
Qed.
Theorem parent_root fuel : parent fuel m (la lt) = Some (la lt).
Proof. unfold parent. rewrite root_iff by constructor. destruct (addr_dec _ _); congruence. Qed.

(** *** children *)
Lemma first_child_ok a id tok kids : rep m (LP a id tok kids) -> first_child m a = Some (hda kids).
Proof.
  rewrite rep_prod. intros (_ & _ & Hc & Hp & _). unfold first_child. rewrite Hc. destruct kids as [|x kids]; [reflexivity|].
  cbn [length Nat.eqb]. destruct (adjacent a (x :: kids)) eqn:E.
  - unfold adjacent in E. apply opt_eqb_eq in E. now rewrite E.
  - now rewrite Hp.
Qed.

Lemma children_from_ok a id tok kids pre post fuel : Sub lt (LP a id tok kids) -> kids = pre ++ post ->
  length post <= fuel ->
  children_from fuel m a (match hda post with Some c => c | None => a end) = Some (map la post).
Proof.
  revert pre fuel. induction post as [|s post IH]; intros pre fuel Hp -> Hf; cbn [hda map].
  - destruct fuel; cbn [children_from]; now rewrite addr_eqb_refl.
  - assert (Hne : addr_eqb (la s) a = false).
    { apply addr_eqb_neq. intros E. pose proof (node_fp _ Hp) as Hn. apply kids_nodup in Hn. destruct Hn as (_ & Hn). apply Hn.
      rewrite <- E. apply (fps_in s); [apply in_or_app; right; now left|apply fp_la]. }
    destruct fuel as [|fuel]; [cbn in Hf; lia|]. cbn [children_from]. rewrite Hne.
    destruct (child_link _ _ _ _ _ _ _ (node_rep _ Hp)) as (ty & E). unfold next_node. rewrite E.
    specialize (IH (pre ++ [s]) fuel Hp). rewrite <- app_assoc in IH. cbn in Hf. specialize (IH eq_refl ltac:(lia)).
    destruct post as [|u post]; cbn [hda] in IH; rewrite IH; reflexivity.
Qed.
Theorem children_ok a id tok kids fuel : Sub lt (LP a id tok kids) -> length kids <= fuel ->
  children fuel m a = Some (map la kids) /\ children_size m a = Some (length kids).
Proof.
  intros Hp Hf. pose proof (node_rep _ Hp) as Hr. unfold children, children_begin, children_size, child_count.
  pose proof Hr as Hr'. apply rep_prod in Hr'. destruct Hr' as (Ht & _ & Hc & _). rewrite Ht, (first_child_ok _ _ _ _ Hr), Hc.
  split; [|reflexivity]. pose proof (children_from_ok a id tok kids [] kids fuel Hp eq_refl Hf) as H. now destruct (hda kids).
Qed.
Theorem children_token a k b e fuel : Sub lt (LT a k b e) -> children fuel m a = Some [] /\ children_size m a = Some 0.
Proof.
  intros Hp. pose proof (node_rep _ Hp) as (Ht & _). unfold children, children_begin, children_size. rewrite Ht.
  split; [|reflexivity]. destruct fuel; cbn [children_from]; now rewrite addr_eqb_refl.
Qed.

(** *** siblings *)
Lemma sibling_next_ok a id tok pre s post : Sub lt (LP a id tok (pre ++ s :: post)) ->
  sibling_next m (la s) = hda (post ++ pre ++ [s]).
Proof.
  intros Hp. destruct (child_link _ _ _ _ _ _ _ (node_rep _ Hp)) as (ty & E). unfold sibling_next, link_of. rewrite E.
  destruct post as [|u post]; [|reflexivity]. pose proof (node_rep _ Hp) as Hr. rewrite (first_child_ok _ _ _ _ Hr).
  apply rep_prod in Hr. destruct Hr as (Ht & _). rewrite Ht. reflexivity.
Qed.

(** From the sibling after [done], until [s] is reached. *)
Lemma siblings_from_ok a id tok kids s rest fuel : forall pre post,
  Sub lt (LP a id tok kids) -> kids = pre ++ s :: post -> forall done, post ++ pre = done ++ rest ->
  length rest <= fuel ->
  siblings_from fuel m (la s) (match hda (rest ++ [s]) with Some c => c | None => la s end) = Some (map la rest).
Proof.
  revert fuel. induction rest as [|u rest IH]; intros fuel pre post Hp Hk done Hd Hf; cbn [hda app map].
  - destruct fuel; cbn [siblings_from]; now rewrite addr_eqb_refl.
  - pose proof (node_fp _ Hp) as Hn. apply kids_nodup in Hn. destruct Hn as (Hn & _).
    assert (Hu : In u (post ++ pre)) by (rewrite Hd; apply in_or_app; right; now left).
    assert (Hne : addr_eqb (la u) (la s) = false).
    { apply addr_eqb_neq. intros E. rewrite Hk, fps_app in Hn. cbn [fps flat_map] in Hn. apply in_app_or in Hu. destruct Hu as [Hu|Hu].
      - apply NoDup_app_inv in Hn. destruct Hn as (_ & Hn & _). apply NoDup_app_inv in Hn. destruct Hn as (_ & _ & Hn).
        apply (Hn (la s)); [apply fp_la|]. rewrite <- E. apply (fps_in u); auto. apply fp_la.
      - apply NoDup_app_inv in Hn. destruct Hn as (_ & _ & Hn). apply (Hn (la s)).
        + rewrite <- E. apply (fps_in u); auto. apply fp_la.
        + apply in_or_app. left. apply fp_la. }
    destruct fuel as [|fuel]; [cbn in Hf; lia|]. cbn [siblings_from]. rewrite Hne.
    assert (Hnext : sibling_next m (la u) = hda (rest ++ [s])).
    { (* u lies in post or in pre *)
      assert (Hsplit : exists p q, kids = p ++ u :: q /\ hda (q ++ p ++ [u]) = hda (rest ++ [s])).
      { destruct (Nat.lt_ge_cases (length done) (length post)) as [Hl|Hl].
        - (* u in post *)
          assert (exists r1, post = done ++ u :: r1 /\ rest = r1 ++ pre) as (r1 & -> & ->).
          { clear - Hd Hl. revert post Hd Hl. induction done as [|x done IH]; intros [|y post] Hd Hl; cbn in *; try lia.
            - injection Hd as -> <-. exists post. auto.
            - injection Hd as -> Hd. destruct (IH post Hd ltac:(lia)) as (r1 & -> & ->). exists r1. auto. }
          exists (pre ++ s :: done), r1. split; [subst kids; rewrite <- app_assoc; reflexivity|].
          destruct r1 as [|z r1]; [|reflexivity]. cbn [app]. destruct pre; reflexivity.
        - (* u in pre *)
          assert (exists d1, done = post ++ d1 /\ pre = d1 ++ u :: rest) as (d1 & -> & ->).
          { clear - Hd Hl. revert done Hd Hl. induction post as [|y post IH]; intros done Hd Hl; cbn in *.
            - exists done. auto.
            - destruct done as [|x done]; cbn in *; [lia|]. injection Hd as -> Hd.
              destruct (IH done Hd ltac:(lia)) as (d1 & -> & ->). exists d1. auto. }
          exists d1, (rest ++ s :: post). split; [subst kids; rewrite <- app_assoc; reflexivity|].
          destruct rest; reflexivity. }
      destruct Hsplit as (p & q & Ek & Eh). rewrite <- Eh. rewrite Ek in Hp. eapply sibling_next_ok; eauto. }
    rewrite Hnext. specialize (IH fuel pre post Hp Hk (done ++ [u])). rewrite <- app_assoc in IH.
    specialize (IH Hd). cbn in Hf. specialize (IH ltac:(lia)).
    destruct (rest ++ [s]) eqn:E; [destruct rest; discriminate|]. cbn [hda] in *. now rewrite IH.
Qed.
Theorem siblings_ok a id tok pre s post fuel : Sub lt (LP a id tok (pre ++ s :: post)) ->
  length pre + length post <= fuel -> siblings fuel m (la s) = Some (map la (post ++ pre)).
Proof.
  intros Hp Hf. unfold siblings. rewrite (sibling_next_ok _ _ _ _ _ _ Hp).
  pose proof (siblings_from_ok a id tok _ s (post ++ pre) fuel pre post Hp eq_refl [] eq_refl) as H.
  rewrite app_length in H. specialize (H ltac:(lia)). rewrite app_assoc.
  destruct ((post ++ pre) ++ [s]) eqn:E; [destruct (post ++ pre); discriminate|]. exact H.
Qed.

Theorem is_last_ok a id tok pre s post : Sub lt (LP a id tok (pre ++ s :: post)) ->
  is_last_child m (la s) = Some (match post with [] => true | _ => false end).
Proof.
  intros Hp. destruct (child_link _ _ _ _ _ _ _ (node_rep _ Hp)) as (ty & E). unfold is_last_child, next_role. rewrite E. now destruct post.
Qed.

(** *** traversal *)
Definition head (s : ltree) : titer := match s with LT a _ _ _ => (Leaf, a) | LP a _ _ _ => (Enter, a) end.
Fixpoint tevents (s : ltree) : list titer :=
  match s with
  | LT a _ _ _ => [(Leaf, a)]
  | LP a _ _ kids => (Enter, a) :: flat_map tevents kids ++ [(Exit, a)]
  end.
Lemma tevents_addr s : forall x, In x (tevents s) -> In (snd x) (fp s).
Proof.
  revert s. refine (ltree_ind' _ _ _).
  - intros a k b e x [<-|[]]. now left.
  - intros a id tok kids IH x [<-|Hx]; [now left|]. apply in_app_or in Hx. destruct Hx as [Hx|[<-|[]]]; [|now left].
    apply in_flat_map in Hx. destruct Hx as (k & Hk & Hx). apply kid_fp. apply (fps_in k); auto.
    rewrite Forall_forall in IH. now apply IH.
Qed.
Lemma arrive_ok s : rep m s -> arrive m (la s) = Some (head s).
Proof.
  destruct s; cbn [la head]; unfold arrive; intros H.
  - destruct H as (-> & _). reflexivity.
  - apply rep_prod in H. destruct H as (-> & _). reflexivity.
Qed.
Lemma tnext_leave e a : e <> Enter -> tnext m (e, a) = tnext m (Exit, a).
Proof. destruct e; (reflexivity || congruence). Qed.
Lemma titer_eqb_eq x y : titer_eqb x y = true <-> x = y.
Proof.
  destruct x as [e a], y as [e' a']. unfold titer_eqb. cbn [fst snd]. rewrite andb_true_iff, addr_eqb_eq.
  split; [intros [H ->]; destruct e, e'; (discriminate || reflexivity)|intros [= -> ->]; destruct e'; auto].
Qed.
Lemma titer_neq x y : x <> y -> titer_eqb x y = false.
Proof. intros H. destruct (titer_eqb x y) eqn:E; auto. apply titer_eqb_eq in E. contradiction. Qed.

Definition oapp {A} (l : list A) (o : option (list A)) : option (list A) := match o with Some r => Some (l ++ r) | None => None end.

Lemma walk_ok s : Sub lt s -> forall stop nxt fuel, ~ In stop (tevents s) -> tnext m (Exit, la s) = Some nxt ->
  tfrom (length (tevents s) + fuel) m stop (head s) = oapp (tevents s) (tfrom fuel m stop nxt).
Proof.
  revert s. refine (ltree_ind' _ _ _).
  - intros a k b e Hs stop nxt fuel Hn Ht. cbn [tevents length head la] in *. cbn [plus Nat.add tfrom].
    rewrite titer_neq by (intros E; apply Hn; rewrite E; now left). rewrite tnext_leave by discriminate. rewrite Ht.
    destruct (tfrom fuel m stop nxt); reflexivity.
  - intros a id tok kids IH Hs stop nxt fuel Hn Ht. cbn [tevents length head la] in *. cbn [Nat.add tfrom].
    rewrite titer_neq by (intros E; apply Hn; rewrite E; now left).
    assert (Hkids : forall post pre, kids = pre ++ post -> forall f,
      tfrom (length (flat_map tevents post) + S f) m stop (match post with [] => (Exit, a) | s :: _ => head s end)
      = oapp (flat_map tevents post ++ [(Exit, a)]) (tfrom f m stop nxt)).
    { induction post as [|s post IHp]; intros pre Hk f.
      - cbn [flat_map length Nat.add tfrom app oapp]. rewrite titer_neq by (intros E; apply Hn; right; apply in_or_app; right; left; exact E).
        rewrite Ht. destruct (tfrom f m stop nxt); reflexivity.
      - assert (Hin : In s kids) by (rewrite Hk; apply in_or_app; right; now left).
        assert (Hsub : Sub lt s) by (eapply Sub_child; eauto).
        rewrite Forall_forall in IH. specialize (IH s Hin Hsub stop).
        assert (Hns : ~ In stop (tevents s)).
        { intros Hi. apply Hn. right. apply in_or_app. left. apply in_flat_map. eauto. }
        rewrite Hk in Hs. destruct (child_link _ _ _ _ _ _ _ (node_rep _ Hs)) as (ty & E).
        assert (Hnx : tnext m (Exit, la s) = Some (match post with [] => (Exit, a) | u :: _ => head u end)).
        { unfold tnext. cbn [fst snd]. unfold link_of. rewrite E. destruct post as [|u post]; [reflexivity|].
          apply arrive_ok. apply node_rep. eapply Sub_child; [exact Hs|]. apply in_or_app. right. right. now left. }
        cbn [flat_map]. rewrite app_length, <- Nat.add_assoc. rewrite (IH _ _ Hns Hnx).
        rewrite (IHp (pre ++ [s])) by (rewrite <- app_assoc; exact Hk).
        destruct (tfrom f m stop nxt); cbn [oapp]; [|reflexivity]. now rewrite <- !app_assoc. }
    pose proof (node_rep _ Hs) as Hr. unfold tnext at 1. cbn [fst snd]. rewrite (first_child_ok _ _ _ _ Hr).
    specialize (Hkids kids [] eq_refl fuel). rewrite app_length. cbn [length]. rewrite <- Nat.add_assoc. cbn [Nat.add].
    destruct kids as [|s kids]; cbn [hda].
    + rewrite Hkids. destruct (tfrom fuel m stop nxt); reflexivity.
    + rewrite arrive_ok by (apply node_rep; eapply Sub_child; [exact Hs|now left]).
      rewrite Hkids. destruct (tfrom fuel m stop nxt); reflexivity.
Qed.

(** What comes directly after the subtree of [s]. *)
Lemma leave_ok s : Sub lt s -> exists nxt, tnext m (Exit, la s) = Some nxt /\ ~ In nxt (tevents s).
Proof.
  intros H. destruct (Sub_cases _ _ H) as [->|(a & id & tok & pre & post & Hp)].
  - exists (Leaf, eof). unfold tnext. cbn [fst snd]. unfold link_of. rewrite (W_root _ _ _ _ _ HW). split.
    + apply (arrive_ok (LT eof KEof bp ep)). apply (W_eof _ _ _ _ _ HW).
    + intros Hi. apply tevents_addr in Hi. apply (W_disjoint _ _ _ _ _ HW _ Hi). now left.
  - destruct (child_link _ _ _ _ _ _ _ (node_rep _ Hp)) as (ty & E). unfold tnext. cbn [fst snd]. unfold link_of. rewrite E.
    pose proof (node_fp _ Hp) as Hn. apply kids_nodup in Hn. destruct Hn as (Hn & Ha).
    destruct post as [|u post].
    + eexists. split; [reflexivity|]. intros Hi. apply tevents_addr in Hi. cbn [snd] in Hi. apply Ha.
      apply (fps_in s); auto. apply in_or_app. right. now left.
    + exists (head u). split.
      * apply arrive_ok. apply node_rep. eapply Sub_child; [exact Hp|]. apply in_or_app. right. right. now left.
      * intros Hi. apply tevents_addr in Hi. replace (snd (head u)) with (la u) in Hi by (destruct u; reflexivity).
        rewrite fps_app in Hn. apply NoDup_app_inv in Hn. destruct Hn as (_ & Hn & _). cbn [fps flat_map] in Hn.
        apply NoDup_app_inv in Hn. destruct Hn as (_ & _ & Hn). apply (Hn _ Hi). apply in_or_app. left. apply fp_la.
Qed.

Lemma head_type s : rep m s -> type_of m (la s) = Some (match s with LT _ _ _ _ => false | _ => true end).
Proof. destruct s; intros H; [apply H|]. apply rep_prod in H. apply H. Qed.

Theorem traverse_ok s fuel : Sub lt s -> length (tevents s) <= fuel -> traverse fuel m (la s) = Some (tevents s).
Proof.
  intros H Hf. destruct (leave_ok s H) as (nxt & Hn & Hi). unfold traverse. rewrite (head_type s (node_rep s H)).
  assert (Hw := walk_ok s H nxt nxt (fuel - length (tevents s)) Hi Hn).
  replace (length (tevents s) + (fuel - length (tevents s))) with fuel in Hw by lia.
  assert (Hz : forall f, tfrom f m nxt nxt = Some []).
  { intros f. assert (titer_eqb nxt nxt = true) as E by now apply titer_eqb_eq. destruct f; cbn [tfrom]; now rewrite E. }
  rewrite Hz in Hw. cbn [oapp] in Hw. rewrite app_nil_r in Hw.
  destruct s; cbn [head la] in *.
  - rewrite (tnext_leave Leaf) by discriminate. rewrite Hn. exact Hw.
  - rewrite Hn. exact Hw.
Qed.

(** *** position and covering lexeme *)

Lemma full_kid a id tok kids k : full (erase (LP a id tok kids)) = true -> In k kids -> full (erase k) = true.
Proof.
  cbn. intros H Hk. apply andb_true_iff in H. destruct H as [_ H]. rewrite forallb_forall in H. apply H. now apply in_map.
Qed.
Lemma full_leaves t : full t = true -> leaves t <> [].
Proof.
  revert t. fix IH 1. intros [k b e|id tok kids]; cbn; [discriminate|].
  destruct kids as [|x kids]; [discriminate|]. cbn. intros H. apply andb_true_iff in H. destruct H as [H _].
  intros E. apply app_eq_nil in E. destruct E as [E _]. now apply (IH x).
Qed.
Lemma first_begin_app l l' : l <> [] -> first_begin (l ++ l') = first_begin l.
Proof. destruct l; [easy|reflexivity]. Qed.

Lemma height_kid a id tok kids k : In k kids -> height (erase k) < height (erase (LP a id tok kids)).
Proof.
  intros Hk. cbn [erase height]. rewrite map_map.
  assert (H : S (height (erase k)) <= list_max (map (fun x => S (height (erase x))) kids)); [|lia].
  pose proof (proj1 (list_max_le (map (fun x => S (height (erase x))) kids) _) (Nat.le_refl _)) as H.
  rewrite Forall_forall in H. apply H. apply in_map_iff. eauto.
Qed.

Lemma position_ok s : rep m s -> full (erase s) = true -> forall fuel, height (erase s) < fuel ->
  position fuel m (la s) = first_begin (leaves (erase s)).
Proof.
  revert s. refine (ltree_ind' _ _ _).
  - intros a k b e Hr _ [|fuel] Hf; [lia|]. destruct Hr as (H1 & H2 & _). cbn [la position]. rewrite H1. unfold token_begin. now rewrite H2.
  - intros a id tok kids IH Hr Hfull [|fuel] Hf; [lia|]. cbn [la position]. rewrite (first_child_ok _ _ _ _ Hr).
    pose proof Hr as Hr'. apply rep_prod in Hr'. destruct Hr' as (Ht & _ & _ & _ & _ & _ & Hk). rewrite Ht.
    destruct kids as [|x kids]; [discriminate|]. cbn [hda]. inversion IH as [|? ? IHx _]; subst. inversion Hk as [|? ? Hx _]; subst.
    assert (Hfx : full (erase x) = true) by (eapply full_kid; [exact Hfull|now left]).
    rewrite IHx; auto; [|pose proof (height_kid a id tok (x :: kids) x (or_introl eq_refl)); lia]. cbn [erase leaves map flat_map]. symmetry. apply first_begin_app. now apply full_leaves.
Qed.

(** [s] in the tree, with the tokens before and after it. *)
Inductive Ctx : ltree -> list (tkind * nat * nat) -> list (tkind * nat * nat) -> Prop :=
| Ctx_root : Ctx lt [] []
| Ctx_kid a id tok pre s post L R : Ctx (LP a id tok (pre ++ s :: post)) L R ->
    Ctx s (L ++ flat_map leaves (map erase pre)) (flat_map leaves (map erase post) ++ R).
Lemma Ctx_sub s L R : Ctx s L R -> Sub lt s.
Proof. induction 1; [constructor|]. eapply Sub_child; [exact IHCtx|]. apply in_or_app. right. now left. Qed.
Lemma Ctx_leaves s L R : Ctx s L R -> leaves (erase lt) = L ++ leaves (erase s) ++ R.
Proof.
  induction 1 as [|a id tok pre s post L R _ IH]; [now rewrite app_nil_r|]. rewrite IH. cbn [erase leaves].
  rewrite map_app, flat_map_app. cbn [map flat_map]. now rewrite <- !app_assoc.
Qed.
Lemma Sub_ctx s : Sub lt s -> exists L R, Ctx s L R.
Proof.
  intros H. assert (G : forall t, (exists L R, Ctx t L R) -> forall s, Sub t s -> exists L R, Ctx s L R).
  { clear. intros t Ht s H. induction H as [t|a id tok kids k s Hk Hs IH]; auto.
    apply IH. destruct Ht as (L & R & Ht). destruct (in_split _ _ Hk) as (pre & post & ->). do 2 eexists. econstructor. exact Ht. }
  apply (G lt); auto. do 2 eexists. constructor.
Qed.

Lemma Sub_full s : full (erase lt) = true -> Sub lt s -> full (erase s) = true.
Proof. clear HW. intros Hf H. revert Hf. induction H; auto. intros. apply IHSub. eapply full_kid; eauto. Qed.

Lemma height_sub t s : Sub t s -> height (erase s) <= height (erase t).
Proof. induction 1 as [|a id tok kids k s Hk _ IH]; [lia|]. pose proof (height_kid a id tok kids k Hk). lia. Qed.

(** How deep [s] lies. *)
Lemma next_outside_ok s L R : full (erase lt) = true -> Ctx s L R ->
  forall fuel, height (erase lt) < fuel + height (erase s) ->
  exists u, next_outside fuel m (la s) = Some (la u) /\ (Sub lt u \/ u = LT eof KEof bp ep) /\ rep m u /\ full (erase u) = true /\
    first_begin (leaves (erase u)) = first_begin (R ++ [(KEof, bp, ep)]).
Proof.
  intros Hfull H. induction H as [|a id tok pre s post L R H IH]; intros fuel Hf.
  - exists (LT eof KEof bp ep). destruct fuel as [|fuel]; [lia|]. cbn [next_outside]. unfold link_of.
    rewrite (W_root _ _ _ _ _ HW). split; [reflexivity|]. split; [auto|]. split; [apply (W_eof _ _ _ _ _ HW)|]. split; reflexivity.
  - pose proof (Ctx_sub _ _ _ H) as Hp. destruct (child_link _ _ _ _ _ _ _ (node_rep _ Hp)) as (ty & E).
    assert (Hin : In s (pre ++ s :: post)) by (apply in_or_app; right; now left).
    pose proof (height_kid a id tok _ s Hin) as Hh. pose proof (height_sub _ _ Hp) as Hh2.
    destruct fuel as [|fuel]; [lia|]. cbn [next_outside]. unfold link_of. rewrite E.
    destruct post as [|u post].
    + destruct (IH fuel ltac:(lia)) as (u & H1 & H2 & H3 & H4 & H5). exists u. cbn [la] in H1. auto.
    + assert (Hu : Sub lt u) by (eapply Sub_child; [exact Hp|apply in_or_app; right; right; now left]).
      exists u. split; [reflexivity|]. split; [auto|]. split; [now apply node_rep|]. split; [now apply Sub_full|].
      cbn [map flat_map]. rewrite <- !app_assoc. symmetry. apply first_begin_app. apply full_leaves. now apply Sub_full.
Qed.


Lemma in_a_row_app p l l' q : in_a_row p (l ++ l') q -> exists r, in_a_row p l r /\ in_a_row r l' q.
Proof.
  revert p. induction l as [|x l IH]; intros p H; [exists p; split; [constructor|exact H]|].
  inversion H; subst. destruct (IH _ H5) as (r & H1 & H2). exists r. split; [constructor; auto|exact H2].
Qed.
Lemma in_a_row_last p l q : in_a_row p l q -> l <> [] -> last_end l = Some q.
Proof.
  intros H Hne. destruct (exists_last Hne) as (l' & [[k b] e] & ->). apply in_a_row_app in H. destruct H as (r & _ & H).
  inversion H as [|? ? ? ? ? _ H']; subst. inversion H'; subst. unfold last_end. now rewrite rev_app_distr.
Qed.
Lemma in_a_row_first p l q k b e : in_a_row p (l ++ [(k, b, e)]) q -> exists x, first_begin (l ++ [(k, b, e)]) = Some x /\ x = p.
Proof.
  intros H. destruct l as [|[[k' b'] e'] l]; cbn [app] in *; inversion H; subst; cbn; eauto.
Qed.

Theorem covering_ok s p fuel : full (erase lt) = true -> in_a_row p (leaves (erase lt)) bp -> Sub lt s ->
  height (erase lt) < fuel ->
  exists b e, first_begin (leaves (erase s)) = Some b /\ last_end (leaves (erase s)) = Some e /\
    position fuel m (la s) = Some b /\ covering_lexeme fuel m (la s) = Some (b, e).
Proof.
  intros Hfull Hrow Hs Hf. pose proof (Sub_full _ Hfull Hs) as Hfs. pose proof (height_sub _ _ Hs) as Hh.
  pose proof (node_rep _ Hs) as Hr. pose proof (position_ok s Hr Hfs fuel ltac:(lia)) as Hpos.
  destruct (Sub_ctx _ Hs) as (L & R & HC).
  destruct (first_begin (leaves (erase s))) as [b|] eqn:Eb.
  2: { pose proof (full_leaves _ Hfs). destruct (leaves (erase s)) as [|[[]]]; [easy|discriminate]. }
  pose proof (Ctx_leaves _ _ _ HC) as El. rewrite El in Hrow. apply in_a_row_app in Hrow. destruct Hrow as (r & _ & Hrow).
  apply in_a_row_app in Hrow. destruct Hrow as (r2 & Hrow1 & Hrow2).
  pose proof (in_a_row_last _ _ _ Hrow1 (full_leaves _ Hfs)) as Hlast.
  exists b, r2. split; [reflexivity|]. split; [exact Hlast|]. split; [exact Hpos|].
  unfold covering_lexeme. rewrite (head_type s Hr). destruct s as [a k b0 e0|a id tok kids]; cbn [la] in *.
  - cbn in Eb, Hlast. injection Eb as <-. injection Hlast as <-. destruct Hr as (_ & H2 & H3 & H4). unfold token_begin, token_end.
    rewrite H2, H3. f_equal. f_equal. lia.
  - rewrite Hpos. destruct (next_outside_ok _ L R Hfull HC fuel) as (u & U1 & U2 & U3 & U4 & U5); [lia|].
    cbn [la] in U1. rewrite U1. rewrite (position_ok u U3 U4).
    + rewrite U5.
      assert (Hrow3 : in_a_row r2 (R ++ [(KEof, bp, ep)]) ep).
      { clear - Hrow2 HW. pose proof (W_eof _ _ _ _ _ HW) as (_ & _ & _ & Hle). revert r2 Hrow2. induction R as [|[[k b] e] R IH]; intros r2 H.
        - inversion H; subst. cbn. constructor; [exact Hle|constructor].
        - inversion H; subst. cbn. constructor; auto. }
      destruct (in_a_row_first _ _ _ _ _ _ Hrow3) as (x & -> & ->). reflexivity.
    + destruct U2 as [U2| ->]; [pose proof (height_sub _ _ U2); lia|cbn; lia].
Qed.
End Walk.
