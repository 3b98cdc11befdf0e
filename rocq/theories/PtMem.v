(** Trees in memory: nodes labelled with their address, and what writes leave intact. *)
From Verif Require Import Prelude RuleModel PtModel PtSpec.
Close Scope N_scope.

(** ** Addresses *)
Definition alt (a b : addr) : Prop := fst a < fst b \/ fst a = fst b /\ snd a < snd b.
Definition ale (a b : addr) : Prop := fst a < fst b \/ fst a = fst b /\ snd a <= snd b.

Lemma addr_eqb_eq a b : addr_eqb a b = true <-> a = b.
Proof.
  destruct a, b. unfold addr_eqb. cbn. rewrite andb_true_iff, !Nat.eqb_eq. split; [intros []; congruence|intros [=]; auto].
Qed.
Lemma addr_eqb_neq a b : addr_eqb a b = false <-> a <> b.
Proof. rewrite <- addr_eqb_eq. destruct (addr_eqb a b); split; congruence. Qed.
Lemma addr_eqb_refl a : addr_eqb a a = true.
Proof. now apply addr_eqb_eq. Qed.
Lemma addr_dec (a b : addr) : {a = b} + {a <> b}.
Proof. destruct (addr_eqb a b) eqn:H; [left; now apply addr_eqb_eq|right; now apply addr_eqb_neq]. Qed.
Lemma opt_eqb_eq a b : opt_eqb a b = true <-> a = b.
Proof. destruct a, b; cbn; rewrite ?addr_eqb_eq; split; congruence. Qed.
Lemma opt_eqb_neq a b : opt_eqb a b = false <-> a <> b.
Proof. rewrite <- opt_eqb_eq. destruct (opt_eqb a b); split; congruence. Qed.

Lemma addr_ext (a b : addr) : fst a = fst b -> snd a = snd b -> a = b.
Proof. destruct a, b. cbn. congruence. Qed.

(** Decides statements about the order of addresses. *)
Ltac aord :=
  repeat match goal with
  | H : @eq addr _ _ |- _ => apply (f_equal (fun x => (fst x, snd x))) in H; cbn [fst snd plus] in H; injection H; clear H; intros
  end;
  unfold alt, ale, plus in *; cbn [fst snd] in *; lia.
Ltac aneq := let H := fresh in intros H; aord.

Lemma write_same a w m : write a w m a = w.
Proof. unfold write. now rewrite addr_eqb_refl. Qed.
Lemma write_other a w m x : x <> a -> write a w m x = m x.
Proof. unfold write. intros H. apply addr_eqb_neq in H. now rewrite H. Qed.

(** ** Labelled trees *)

Section LtreeInd.
Variable P : ltree -> Prop.
Hypothesis HT : forall a k b e, P (LT a k b e).
Hypothesis HP : forall a id tok kids, Forall P kids -> P (LP a id tok kids).
Fixpoint ltree_ind' (t : ltree) : P t :=
  match t with
  | LT a k b e => HT a k b e
  | LP a id tok kids =>
      HP a id tok kids ((fix go l := match l return Forall P l with [] => Forall_nil P | t :: l => Forall_cons t (ltree_ind' t) (go l) end) kids)
  end.
End LtreeInd.

Fixpoint lsta (l : list ltree) : option addr :=
  match l with [] => None | [t] => Some (la t) | _ :: l => lsta l end.
Lemma lsta_app l l' : l' <> [] -> lsta (l ++ l') = lsta l'.
Proof.
  intros H. induction l as [|x l IH]; [reflexivity|]. cbn [app]. rewrite <- IH.
  destruct (l ++ l') eqn:E; [|reflexivity]. apply app_eq_nil in E. now destruct E.
Qed.
Lemma lsta_snoc l t : lsta (l ++ [t]) = Some (la t).
Proof. now rewrite lsta_app. Qed.
Lemma lsta_some l : l <> [] -> exists pre t, l = pre ++ [t] /\ lsta l = Some (la t).
Proof.
  intros H. destruct (exists_last H) as (pre & t & ->). exists pre, t. now rewrite lsta_snoc.
Qed.

(** The first child is stored directly behind its parent. *)

Definition fps (l : list ltree) : list addr := flat_map fp l.

Lemma fp_node t : incl [la t; plus (la t) 1; plus (la t) 2] (fp t).
Proof. destruct t; intros w H; [exact H|]. apply in_or_app. now left. Qed.
Lemma fp_la t : In (la t) (fp t).
Proof. apply fp_node. now left. Qed.
Lemma fps_app l l' : fps (l ++ l') = fps l ++ fps l'.
Proof. apply flat_map_app. Qed.
Lemma fps_in t l : In t l -> incl (fp t) (fps l).
Proof. intros H w Hw. apply in_flat_map. eauto. Qed.
Lemma fps_snoc l t : fps (l ++ [t]) = fps l ++ fp t.
Proof. rewrite fps_app. cbn. now rewrite app_nil_r. Qed.

(** ** Representation *)
(** Siblings are linked. *)
Fixpoint chain (m : memory) (l : list ltree) : Prop :=
  match l with
  | t :: ((u :: _) as r) => (exists ty, m (la t) = WLink (Some (la u)) ty false) /\ chain m r
  | _ => True
  end.
Definition closed (m : memory) (l : list ltree) (parent : addr) : Prop :=
  forall z, lsta l = Some z -> exists ty, m z = WLink (Some parent) ty true.

Fixpoint rep (m : memory) (t : ltree) : Prop :=
  match t with
  | LT a k b e => type_of m a = Some false /\ m (plus a 1) = WBegin b /\ m (plus a 2) = WEnd (e - b) k /\ b <= e
  | LP a id tok kids =>
      type_of m a = Some true /\ m (plus a 1) = WId id /\
      m (plus a 2) = WCount (length kids) tok (match kids with [] => true | _ => adjacent a kids end) /\
      (match kids with [] => True | _ => if adjacent a kids then True else m (plus a 3) = WPtr (hda kids) end) /\
      chain m kids /\ closed m kids a /\
      (fix all l := match l with [] => True | t :: l => rep m t /\ all l end) kids
  end.

Lemma rep_all m l : (fix all l := match l with [] => True | t :: l => rep m t /\ all l end) l <-> Forall (rep m) l.
Proof.
  induction l as [|t l IH]; [split; auto|]. split.
  - intros [H1 H2]. constructor; tauto.
  - inversion 1; subst. tauto.
Qed.

Lemma rep_prod m a id tok kids : rep m (LP a id tok kids) <->
  type_of m a = Some true /\ m (plus a 1) = WId id /\
  m (plus a 2) = WCount (length kids) tok (match kids with [] => true | _ => adjacent a kids end) /\
  (match kids with [] => True | _ => if adjacent a kids then True else m (plus a 3) = WPtr (hda kids) end) /\
  chain m kids /\ closed m kids a /\ Forall (rep m) kids.
Proof. cbn [rep]. rewrite rep_all. reflexivity. Qed.

Lemma rep_type m t : rep m t -> exists ty, type_of m (la t) = Some ty /\ ty = match t with LT _ _ _ _ => false | _ => true end.
Proof. destruct t; cbn; intros H; eexists; (split; [apply H|reflexivity]). Qed.
Lemma type_link m a ty : type_of m a = Some ty -> exists n r, m a = WLink n ty r.
Proof. unfold type_of. destruct (m a); try discriminate. intros [= ->]. eauto. Qed.

Lemma lsta_in l z : lsta l = Some z -> exists t, In t l /\ la t = z.
Proof.
  intros H. destruct l as [|x l]; [discriminate|]. destruct (lsta_some (x :: l)) as (pre & t & E & Hl); [discriminate|].
  exists t. rewrite E. split; [apply in_or_app; right; now left|congruence].
Qed.
Lemma lsta_fps l z : lsta l = Some z -> In z (fps l).
Proof. intros H. destruct (lsta_in _ _ H) as (t & Hi & <-). apply (fps_in _ _ Hi), fp_la. Qed.

(** *** What is not written stays *)
Definition agree (m m' : memory) (ws : list addr) : Prop := forall w, In w ws -> m' w = m w.
Lemma agree_incl m m' ws ws' : incl ws' ws -> agree m m' ws -> agree m m' ws'.
Proof. intros H Ha w Hw. auto. Qed.

Lemma chain_agree m m' l : (forall t, In t l -> m' (la t) = m (la t)) -> chain m l -> chain m' l.
Proof.
  induction l as [|t l IH]; [auto|]. destruct l as [|u l]; [auto|]. intros Ha [[ty H1] H2]. split.
  - exists ty. rewrite Ha; [exact H1|now left].
  - apply IH; auto. intros x Hx. apply Ha. now right.
Qed.

Lemma rep_agree m m' t : agree m m' (fp t) -> rep m t -> rep m' t.
Proof.
  revert t. refine (ltree_ind' _ _ _).
  - intros a k b e Ha (H1 & H2 & H3 & H4). cbn [rep]. unfold type_of in *.
    rewrite (Ha a), (Ha (plus a 1)), (Ha (plus a 2)) by (cbn; auto). auto.
  - intros a id tok kids IH Ha. rewrite !rep_prod. intros (H1 & H2 & H3 & H4 & H5 & H6 & H7).
    assert (Hk : agree m m' (fps kids)).
    { intros w Hw. apply Ha. cbn [fp]. apply in_or_app; right. apply in_or_app; right. exact Hw. }
    assert (Hl : forall t, In t kids -> m' (la t) = m (la t)) by (intros t Ht; apply Hk, (fps_in _ _ Ht), fp_la).
    unfold type_of in *. rewrite (Ha a), (Ha (plus a 1)), (Ha (plus a 2)) by (cbn; auto).
    repeat split; auto.
    + destruct kids as [|x kids]; auto. destruct (adjacent a (x :: kids)) eqn:E; auto.
      rewrite Ha; auto. cbn [fp]. rewrite E. apply in_or_app; right. apply in_or_app; left. now left.
    + eapply chain_agree; eauto.
    + intros z Hz. destruct (H6 z Hz) as [ty E]. exists ty. rewrite Hk; auto. now apply lsta_fps.
    + rewrite Forall_forall in *. intros t Ht. apply IH; auto. apply (agree_incl _ _ _ _ (fps_in _ _ Ht) Hk).
Qed.

Lemma reps_agree m m' l : agree m m' (fps l) -> Forall (rep m) l -> Forall (rep m') l.
Proof.
  intros Ha. rewrite !Forall_forall. intros H t Ht. apply (rep_agree m); auto.
  apply (agree_incl _ _ _ _ (fps_in _ _ Ht) Ha).
Qed.

(** The link of the root may change, if its type stays. *)
Lemma rep_relink m m' t : NoDup (fp t) -> (forall w, In w (fp t) -> w <> la t -> m' w = m w) ->
  type_of m' (la t) = type_of m (la t) -> rep m t -> rep m' t.
Proof.
  destruct t as [a k b e|a id tok kids]; intros Hn Ha Ht.
  - cbn [rep la] in *. intros (H1 & H2 & H3 & H4). inversion Hn as [|? ? Hi _]; subst.
    rewrite Ht, !Ha; auto; cbn; auto; intros E; apply Hi; cbn; rewrite E; auto.
  - rewrite !rep_prod. intros (H1 & H2 & H3 & H4 & H5 & H6 & H7). cbn [la] in *.
    inversion Hn as [|? ? Hi _]; subst.
    assert (Hw : forall w, In w (fp (LP a id tok kids)) -> w <> a -> m' w = m w) by auto.
    assert (Ho : forall w, In w ([plus a 1; plus a 2] ++
      (match kids with [] => [] | _ => if adjacent a kids then [] else [plus a 3] end) ++ flat_map fp kids) -> m' w = m w).
    { intros w Hin. apply Hw; [right; exact Hin|]. intros ->. now apply Hi. }
    assert (Hk : agree m m' (fps kids)).
    { intros w Hw'. apply Ho. apply in_or_app; right. apply in_or_app; right. exact Hw'. }
    rewrite Ht, (Ho (plus a 1)), (Ho (plus a 2)) by (cbn; auto). repeat split; auto.
    + destruct kids as [|x kids]; auto. destruct (adjacent a (x :: kids)) eqn:E; auto.
      rewrite Ho; auto. apply in_or_app; right. apply in_or_app; left. now left.
    + eapply chain_agree; [|exact H5]. intros t Ht'. apply Hk, (fps_in _ _ Ht'), fp_la.
    + intros z Hz. destruct (H6 z Hz) as [ty E]. exists ty. rewrite Hk; auto. now apply lsta_fps.
    + eapply reps_agree; eauto.
Qed.

(** ** Lists of siblings under construction *)
Definition kids_ok (m : memory) (l : list ltree) : Prop := chain m l /\ Forall (rep m) l /\ NoDup (fps l).

Lemma kids_agree m m' l : agree m m' (fps l) -> kids_ok m l -> kids_ok m' l.
Proof.
  intros Ha (H1 & H2 & H3). repeat split; auto.
  - eapply chain_agree; [|exact H1]. intros t Ht. apply Ha, (fps_in _ _ Ht), fp_la.
  - eapply reps_agree; eauto.
Qed.

Lemma chain_snoc m l t u : chain m (l ++ [t]) -> (exists ty, m (la t) = WLink (Some (la u)) ty false) ->
  forall r, chain m (u :: r) -> chain m ((l ++ [t]) ++ u :: r).
Proof.
  intros Hc Hl r Hr. induction l as [|x l IH]; cbn [app] in *; [cbn [chain]; split; auto|].
  destruct l as [|y l]; cbn [app chain] in *; tauto.
Qed.

Lemma NoDup_app_inv {A} (l l' : list A) : NoDup (l ++ l') -> NoDup l /\ NoDup l' /\ (forall x, In x l -> ~ In x l').
Proof.
  induction l as [|x l IH]; cbn; intros H; [repeat split; auto; constructor|].
  inversion H as [|? ? Hn Hd]; subst. destruct (IH Hd) as (H1 & H2 & H3). rewrite in_app_iff in Hn.
  repeat split; auto; [constructor; tauto|]. intros y [<-|Hy]; auto.
Qed.
Lemma NoDup_app_intro {A} (l l' : list A) : NoDup l -> NoDup l' -> (forall x, In x l -> ~ In x l') -> NoDup (l ++ l').
Proof.
  intros H1 H2 H3. induction H1 as [|x l Hn Hd IH]; cbn; auto. constructor.
  - rewrite in_app_iff. intros [H|H]; [auto|]. eapply H3; [now left|exact H].
  - apply IH. intros y Hy. apply H3. now right.
Qed.

(** Writing the link of the last sibling. *)
Lemma relink_last m pre t n r : kids_ok m (pre ++ [t]) ->
  exists ty, type_of m (la t) = Some ty /\
  let m' := write (la t) (WLink n ty r) m in
  chain m' (pre ++ [t]) /\ Forall (rep m') (pre ++ [t]) /\ NoDup (fps (pre ++ [t])).
Proof.
  intros (H1 & H2 & H3). apply Forall_app in H2. destruct H2 as [H2 H4]. inversion H4 as [|? ? Ht _]; subst.
  destruct (rep_type _ _ Ht) as (ty & E & _). exists ty. split; [exact E|]. intros m'.
  rewrite fps_snoc in *. destruct (NoDup_app_inv _ _ H3) as (N1 & N2 & N3).
  assert (Ha : agree m m' (fps pre)).
  { intros w Hw. apply write_other. intros ->. apply (N3 _ Hw), fp_la. }
  assert (Hlast : rep m' t).
  { apply (rep_relink m); auto.
    - intros w Hw Hne. now apply write_other.
    - unfold m'. unfold type_of at 1. rewrite write_same. congruence. }
  repeat split; auto.
  - assert (Hx : forall x, In x pre -> m' (la x) = m (la x)) by (intros x Hx; apply Ha, (fps_in _ _ Hx), fp_la).
    revert Hx H1. clear. induction pre as [|x pre IH]; [auto|]. intros Hx Hc.
    destruct pre as [|y pre]; cbn [app chain] in *.
    + destruct Hc as [[ty' H] _]. split; [|exact I]. exists ty'. rewrite Hx; [exact H|now left].
    + destruct Hc as [[ty' H] Hc]. split; [exists ty'; rewrite Hx; [exact H|now left]|]. apply IH; [|exact Hc].
      intros z Hz. apply Hx. now right.
  - apply Forall_app. split; [eapply reps_agree; eauto|]. constructor; auto.
Qed.

(** Appending siblings: marker::insert and insert_list. *)
Lemma splice m l ts : kids_ok m l -> kids_ok m ts -> NoDup (fps (l ++ ts)) -> forall z u r,
  lsta l = Some z -> ts = u :: r ->
  exists ty, type_of m z = Some ty /\ kids_ok (write z (WLink (Some (la u)) ty false) m) (l ++ ts).
Proof.
  intros Hl Ht Hn z u r Hz ->. destruct (lsta_some l) as (pre & t & -> & E); [intros ->; discriminate|].
  rewrite E in Hz. injection Hz as <-. destruct (relink_last m pre t (Some (la u)) false Hl) as (ty & Hty & H1 & H2 & H3).
  exists ty. split; [exact Hty|]. set (m' := write (la t) (WLink (Some (la u)) ty false) m) in *. cbn zeta in *.
  rewrite fps_app in Hn. destruct (NoDup_app_inv _ _ Hn) as (N1 & N2 & N3).
  assert (Ha : agree m m' (fps (u :: r))).
  { intros w Hw. apply write_other. intros ->. apply (N3 (la t)); auto. rewrite fps_snoc. apply in_or_app. right. apply fp_la. }
  destruct (kids_agree _ _ _ Ha Ht) as (K1 & K2 & K3). split; [|split].
  - apply chain_snoc; auto. exists ty. apply write_same.
  - apply Forall_app. auto.
  - rewrite fps_app. exact Hn.
Qed.

(** insert_children_into: the siblings become the children of the production at [a]. *)
Lemma close_kids m l a id tok k :
  kids_ok m l -> type_of m a = Some true -> m (plus a 1) = WId id -> m (plus a 2) = WCount 0 tok true ->
  (forall w, In w (node_words a) -> ~ In w (fps l)) ->
  (l <> [] -> adjacent a l = false -> ~ In (plus a 3) (fps l)) ->
  m_count k = length l -> m_first k = hda l -> m_last k = lsta l ->
  exists m', insert_children_into k a m = Some m' /\ rep m' (LP a id tok l) /\
    NoDup (fp (LP a id tok l)) /\
    m' a = m a /\
    forall w, ~ In w (fp (LP a id tok l)) -> m' w = m w.
Proof.
  intros Hl Hty Hid Hc Hw Hp Kc Kf Kl. unfold insert_children_into. rewrite Hc, Kc, Kf, Kl.
  assert (HND : NoDup (fp (LP a id tok l))).
  { destruct Hl as (_ & _ & Hn). cbn [fp]. change (flat_map fp l) with (fps l).
    assert (Hnd : NoDup (node_words a)) by (repeat constructor; cbn; intros H; repeat destruct H as [H|H]; try tauto; aord).
    apply NoDup_app_intro; [exact Hnd| |].
    - apply NoDup_app_intro; auto.
      + destruct l; [constructor|]. destruct (adjacent a _); repeat constructor; auto.
      + destruct l as [|x l]; [now intros|]. destruct (adjacent a _) eqn:E; [now intros|].
        intros w [<-|[]]. apply Hp; [discriminate|reflexivity].
    - intros w Hi. rewrite in_app_iff. intros [H|H]; [|now apply (Hw w)].
      assert (w = plus a 3) by (destruct l; [destruct H|]; destruct (adjacent a _); [destruct H|]; destruct H as [H|[]]; auto). subst.
      cbn in Hi. repeat destruct Hi as [Hi|Hi]; try tauto; aord. }
  destruct l as [|x l].
  - exists m. cbn [length Nat.eqb]. split; auto. split; [|auto]. apply rep_prod. cbn. repeat split; auto; discriminate.
  - cbn [length Nat.eqb]. set (L := x :: l) in *.
    change (opt_eqb (hda L) (Some (plus a 3))) with (adjacent a L).
    destruct (lsta_some L) as (pre & t & E & Hls); [discriminate|]. rewrite Hls.
    set (m1 := if adjacent a L then m else write (plus a 3) (WPtr (hda L)) m).
    assert (Ha1 : agree m m1 (fps L)).
    { intros w Hin. unfold m1. destruct (adjacent a L) eqn:Ea; auto. apply write_other. intros ->. now apply Hp in Hin. }
    assert (H1 : kids_ok m1 L) by (eapply kids_agree; eauto).
    assert (Hr : forall w, w <> plus a 3 -> m1 w = m w).
    { intros w Hne. unfold m1. destruct (adjacent a L); auto. now apply write_other. }
    rewrite E in H1. destruct (relink_last m1 pre t (Some a) true H1) as (ty & Hty1 & C1 & C2 & C3). cbn zeta in *.
    unfold set_parent. rewrite Hty1. set (m2 := write (la t) (WLink (Some a) ty true) m1) in *. rewrite <- E in *.
    set (m3 := write (plus a 2) (WCount (S (length l)) tok (adjacent a L)) m2).
    exists m3. split; [reflexivity|].
    assert (Ha2 : agree m2 m3 (fps L)).
    { intros w Hin. apply write_other. intros ->. apply (Hw (plus a 2)); cbn; auto. }
    destruct (kids_agree m2 m3 L Ha2) as (D1 & D2 & D3); [split; auto|].
    assert (Ht : In (la t) (fps L)) by (apply lsta_fps; exact Hls).
    assert (Hother : forall w, w <> plus a 3 -> w <> la t -> w <> plus a 2 -> m3 w = m w).
    { intros w Q1 Q2 Q3. unfold m3, m2. rewrite !write_other by auto. auto. }
    assert (Hna : forall w, In w (node_words a) -> w <> la t) by (intros w Hi ->; now apply (Hw (la t))).
    assert (Hma : m3 a = m a).
    { apply Hother; [aneq|apply Hna; cbn; auto|aneq]. }
    split; [|split; [exact HND|split; [exact Hma|]]].
    + apply rep_prod. split; [unfold type_of; now rewrite Hma|].
      split; [rewrite Hother; auto; [aneq|apply Hna; cbn; auto|aneq]|].
      split; [apply write_same|]. split.
      * unfold L at 1. destruct (adjacent a L) eqn:Ea; auto.
        unfold m3, m2. rewrite !write_other; [unfold m1; now rewrite write_same| |aneq].
        intros Hx. rewrite <- Hx in Ht. exact (Hp ltac:(discriminate) eq_refl Ht).
      * split; [exact D1|]. split; [|exact D2].
        intros z Hz. rewrite Hls in Hz. injection Hz as <-. exists ty. unfold m3. rewrite write_other; [apply write_same|].
        intros Hx. apply (Hna (plus a 2)); cbn; auto.
    + intros w Hn. cbn [fp] in Hn. change (flat_map fp L) with (fps L) in Hn. rewrite !in_app_iff in Hn. cbn [In] in Hn.
      destruct (addr_dec w (plus a 3)) as [->|N1]; [|apply Hother; auto; intros ->; tauto].
      unfold m3, m2. rewrite !write_other; [|intros Hx; rewrite Hx in Hn; tauto|aneq]. unfold m1. unfold L at 1 in Hn.
      destruct (adjacent a L) eqn:Ea; auto. exfalso. apply Hn. right. left. now left.
Qed.
