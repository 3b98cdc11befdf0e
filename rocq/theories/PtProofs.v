(** The builder's memory represents the tree of the specification. *)
From Verif Require Import Prelude RuleModel PtModel PtSpec PtMem.
Close Scope N_scope.

(** ** Depths and sizes *)
Definition hts (l : list ltree) : nat := list_max (map (fun t => S (height (erase t))) l).
Lemma list_max_app l l' : list_max (l ++ l') = Nat.max (list_max l) (list_max l').
Proof. induction l as [|x l IH]; cbn; [reflexivity|]. fold (list_max (l ++ l')) (list_max l). rewrite IH. lia. Qed.
Lemma hts_app l l' : hts (l ++ l') = Nat.max (hts l) (hts l').
Proof. unfold hts. now rewrite map_app, list_max_app. Qed.
Lemma hts_pos l : l <> [] -> 1 <= hts l.
Proof. destruct l as [|x l]; [easy|]. intros _. change (hts (x :: l)) with (Nat.max (S (height (erase x))) (hts l)). lia. Qed.
Lemma height_lp a id tok l : height (erase (LP a id tok l)) = hts l.
Proof. cbn. unfold hts. now rewrite map_map. Qed.

Definition depth_ok (k : marker) (l : list ltree) (d : nat) : Prop :=
  m_depth k = d /\ d <= m_max k /\ m_count k = length l /\ local_max k = d + hts l.

Lemma depth_app k k' l ts d x :
  depth_ok k l d -> ts <> [] -> m_depth k' = d -> m_count k' = length l + length ts ->
  m_max k' = Nat.max (m_max k) x -> x = d + hts ts \/ x <= d /\ hts ts = 1 -> depth_ok k' (l ++ ts) d.
Proof.
  intros (H1 & H2 & H3 & H4) Hts Hd Hc Hm Hx. unfold depth_ok, local_max in *. rewrite hts_app, app_length, Hd, Hc, Hm.
  assert (1 <= hts ts) by (apply hts_pos; exact Hts).
  assert (0 < length ts) by (destruct ts; [easy|cbn; lia]).
  assert (l = [] \/ 1 <= hts l /\ 0 < length l) as Hl.
  { destruct l; [auto|right]. split; [now apply hts_pos|cbn; lia]. }
  rewrite H1, H3 in H4.
  destruct (0 <? length l + length ts) eqn:E1; [|apply Nat.ltb_ge in E1; lia].
  rewrite andb_true_r.
  destruct Hl as [->|[Hl1 Hl2]].
  - cbn [length hts map list_max] in *. rewrite Nat.ltb_irrefl, andb_false_r in H4.
    change (hts []) with 0 in *.
    destruct (d =? Nat.max (m_max k) x) eqn:E2; [apply Nat.eqb_eq in E2|apply Nat.eqb_neq in E2]; repeat split; lia.
  - destruct (0 <? length l) eqn:E3; [|apply Nat.ltb_ge in E3; lia]. rewrite andb_true_r in H4.
    destruct (d =? m_max k) eqn:E4; [apply Nat.eqb_eq in E4|apply Nat.eqb_neq in E4];
    (destruct (d =? Nat.max (m_max k) x) eqn:E2; [apply Nat.eqb_eq in E2|apply Nat.eqb_neq in E2]); repeat split; lia.
Qed.

(** ** Frames with addresses *)
Record gf := Gf { gp : option (addr * (nat * bool)); gk : list ltree }.
Definition erase_gf (g : gf) : frame := Frame (option_map snd (gp g)) (map erase (gk g)).
Definition childless (g : gf) : bool := match gp g, gk g with Some _, [] => true | _, _ => false end.

(** ** Writing nodes *)
Lemma put_token_rep a k b e m : b <= e -> rep (put_token a k b e m) (LT a k b e).
Proof.
  intros H. cbn [rep]. unfold put_token, type_of. rewrite !write_other by aneq. rewrite write_same.
  rewrite (write_other (plus a 2)), write_same by aneq. rewrite write_same. auto.
Qed.
Lemma node_nodup a : NoDup [a; plus a 1; plus a 2].
Proof. repeat constructor; cbn; intros H; repeat destruct H as [H|H]; try tauto; aord. Qed.
Lemma put_token_kids a k b e m : b <= e -> kids_ok (put_token a k b e m) [LT a k b e].
Proof.
  intros H. split; [exact I|]. split; [constructor; [now apply put_token_rep|constructor]|].
  cbn. apply node_nodup.
Qed.
Lemma put_token_other a k b e m w : ~ In w (node_words a) -> put_token a k b e m w = m w.
Proof. intros H. unfold put_token. rewrite !write_other; auto; intros ->; apply H; cbn; auto. Qed.
Lemma put_production_other a id tok m w : ~ In w (node_words a) -> put_production a id tok m w = m w.
Proof. intros H. unfold put_production. rewrite !write_other; auto; intros ->; apply H; cbn; auto. Qed.
Lemma node_above a w hi : ale hi a -> alt w hi -> ~ In w (node_words a).
Proof. intros H1 H2 H3. cbn in H3. repeat destruct H3 as [H3|H3]; try tauto; aord. Qed.

Lemma kids_of_nil m : kids_ok m [].
Proof. repeat split; constructor. Qed.
Lemma below_app l l' : below (l ++ l') = below l + below l'.
Proof. unfold below. now rewrite map_app, list_sum_app. Qed.
Lemma below_nodes l : below l + length l = list_sum (map nodes l).
Proof.
  unfold below. induction l as [|x l IH]; cbn; [reflexivity|].
  assert (1 <= nodes x) by (destruct x; cbn; lia). fold (list_sum (map nodes l)) in *.
  unfold list_sum in *. lia.
Qed.
Lemma below_one id tok l : below [TProd id tok l] = below l + length l.
Proof. rewrite below_nodes. unfold below. cbn [map nodes pred]. unfold list_sum at 1. cbn [fold_right]. lia. Qed.
Lemma insert_as_list k c m : insert k c m = insert_list k 1 (Some c) (Some c) m.
Proof.
  unfold insert, insert_list. cbn [Nat.eqb]. rewrite !Nat.add_1_r.
  destruct (m_first k); [|reflexivity]. destruct (m_last k); reflexivity.
Qed.
Lemma with_max_same k : with_max (Nat.max (m_max k) 0) k = k.
Proof. destruct k. unfold with_max. cbn. now rewrite Nat.max_0_r. Qed.
Lemma app_nil_iff {A} (l : list A) : length l = 0 -> l = [].
Proof. destruct l; [auto|discriminate]. Qed.

Section Cap.
Variable cap : nat.
Hypothesis cap_ok : 4 <= cap.

Record Top (m : memory) (hi : addr) (k : marker) (g : gf) (d : nat) (base : addr) : Prop := {
  T_prod : m_prod k = option_map fst (gp g);
  T_first : m_first k = hda (gk g);
  T_last : m_last k = lsta (gk g);
  T_depth : depth_ok k (gk g) d;
  T_kids : kids_ok m (gk g);
  T_range : forall w, In w (fps (gk g)) -> ale base w /\ alt w hi /\ snd w < cap;
  T_base : ale base hi;
  T_node : forall a i, gp g = Some (a, i) ->
    base = plus a 3 /\ m a = WLink None true true /\ m (plus a 1) = WId (fst i) /\
    m (plus a 2) = WCount 0 (snd i) true /\ snd a + 3 < cap /\
    (gk g = [] -> snd hi < cap) /\
    (gk g <> [] -> adjacent a (gk g) = false -> ~ In (plus a 3) (fps (gk g)))
}.

Arguments T_prod {m hi k g d base}.
Arguments T_first {m hi k g d base}.
Arguments T_last {m hi k g d base}.
Arguments T_depth {m hi k g d base}.
Arguments T_kids {m hi k g d base}.
Arguments T_range {m hi k g d base}.
Arguments T_base {m hi k g d base}.
Arguments T_node {m hi k g d base}.

Lemma T_count {m hi k g d base} : Top m hi k g d base -> m_count k = length (gk g).
Proof. intros H. apply (T_depth H). Qed.

(** Writes at or above [hi] do not matter, and [hi] may grow. *)
Lemma Top_agree m m' hi hi' k g d base :
  Top m hi k g d base -> (forall w, alt w hi -> m' w = m w) -> ale hi hi' ->
  (childless g = true -> snd hi' < cap) -> Top m' hi' k g d base.
Proof.
  intros H Ha Hh Hc. pose proof (T_base H) as Hb.
  constructor; [exact (T_prod H)|exact (T_first H)|exact (T_last H)|exact (T_depth H)| | | | ].
  - eapply kids_agree; [|apply H]. intros w Hw. apply Ha. now apply (T_range H).
  - intros w Hw. destruct (T_range H w Hw) as (H1 & H2 & H3). repeat split; auto. aord.
  - aord.
  - intros a i E. destruct (T_node H a i E) as (H1 & H2 & H3 & H4 & H5 & H6 & H7). subst base.
    rewrite !Ha by aord. repeat split; auto. intros Hk. apply Hc. unfold childless. now rewrite E, Hk.
Qed.


(** A new production node. *)
Lemma Top_new m m' a (p : info) d :
  m' = put_production a (i_id p) (i_token p) m -> snd a + 3 < cap ->
  Top m' (plus a 3) (new_marker a (S d) (Some a)) (Gf (Some (a, (i_id p, i_token p))) []) (S d) (plus a 3).
Proof.
  intros -> Hs. constructor; cbn [gp gk]; try reflexivity.
  - unfold depth_ok, local_max. cbn. rewrite andb_false_r. change (hts []) with 0. lia.
  - apply kids_of_nil.
  - intros w [].
  - aord.
  - intros a' i [= <- <-]. unfold put_production. split; [reflexivity|].
    split; [rewrite !write_other by aneq; now rewrite write_same|].
    split; [rewrite write_other by aneq; now rewrite write_same|].
    split; [apply write_same|]. split; [exact Hs|]. split; [intros _; cbn; exact Hs|]. intros H; now elim H.
Qed.

(** A new container. *)
Lemma Top_container m hi d unwind :
  Top m hi (new_marker unwind d None) (Gf None []) d hi.
Proof.
  constructor; cbn [gp gk]; try reflexivity.
  - unfold depth_ok, local_max. cbn. rewrite andb_false_r. change (hts []) with 0. lia.
  - apply kids_of_nil.
  - intros w [].
  - aord.
  - discriminate.
Qed.


(** Appending children to the active node. *)
Lemma append_ok m hi hi' k k0 g d base ts x :
  Top m hi k0 g d base -> k = with_max (Nat.max (m_max k0) x) k0 ->
  ts <> [] -> kids_ok m ts -> x = d + hts ts \/ x <= d /\ hts ts = 1 ->
  (forall w, In w (fps ts) -> ale hi w /\ alt w hi' /\ snd w < cap) -> ale hi hi' ->
  (childless g = true -> forall w, In w (fps ts) -> Some w <> hda ts -> alt hi w) ->
  exists k' m', insert_list k (length ts) (hda ts) (lsta ts) m = Some (k', m') /\
    Top m' hi' k' (Gf (gp g) (gk g ++ ts)) d base /\
    m_unwind k' = m_unwind k0 /\ m_prod k' = m_prod k0 /\ (forall w, alt w base -> m' w = m w).
Proof.
  intros HT Hk Hts Hok Hx Hr Hh Hc.
  assert (Hdis : forall w, In w (fps (gk g)) -> ~ In w (fps ts)).
  { intros w H1 H2. apply Hr in H2. destruct (T_range HT w H1) as (_ & H3 & _). aord. }
  assert (Hnd : NoDup (fps (gk g ++ ts))).
  { rewrite fps_app. apply NoDup_app_intro; [apply (T_kids HT)|apply Hok|exact Hdis]. }
  destruct ts as [|u r]; [easy|].
  pose proof (T_depth HT) as Hd. pose proof (T_base HT) as Hb.
  set (K := Marker (m_unwind k0) (m_prod k0) (m_count k0 + length (u :: r))
    (match m_first k0 with None => hda (u :: r) | f => f end) (lsta (u :: r)) (m_depth k0) (Nat.max (m_max k0) x)).
  assert (HK : forall m', kids_ok m' (gk g ++ u :: r) ->
    (forall w, ~ In w (fps (gk g)) -> m' w = m w) ->
    Top m' hi' K (Gf (gp g) (gk g ++ u :: r)) d base).
  { intros m' Hok' Hm'. constructor; cbn [gp gk K m_prod m_first m_last].
    - apply HT.
    - rewrite (T_first HT). destruct (gk g); reflexivity.
    - now rewrite lsta_app.
    - refine (depth_app k0 K _ _ _ x Hd Hts _ _ eq_refl Hx); cbn [K m_depth m_count m_max]; [apply Hd|].
      rewrite (T_count HT). reflexivity.
    - exact Hok'.
    - intros w Hw. rewrite fps_app in Hw. apply in_app_or in Hw. destruct Hw as [Hw|Hw].
      + destruct (T_range HT w Hw) as (H1 & H2 & H3). repeat split; auto; aord.
      + destruct (Hr w Hw) as (H1 & H2 & H3). repeat split; auto; aord.
    - aord.
    - intros a i E. destruct (T_node HT a i E) as (H1 & H2 & H3 & H4 & H5 & H6 & H7). subst base.
      assert (Hno : forall w, alt w (plus a 3) -> m' w = m w).
      { intros w Hw. apply Hm'. intros Hin. apply (T_range HT) in Hin. destruct Hin as (Hin & _). aord. }
      rewrite !Hno by aord. repeat split; auto.
      + intros Hnil. apply app_eq_nil in Hnil. now destruct Hnil.
      + intros _ Hadj. rewrite fps_app. intros Hin. apply in_app_or in Hin.
        destruct (gk g) as [|y l] eqn:Eg.
        * destruct Hin as [[]|Hin]. unfold adjacent in Hadj. apply opt_eqb_neq in Hadj.
          assert (Hcl : childless g = true) by (unfold childless; now rewrite E, Eg).
          cbn [app] in Hadj. specialize (Hc Hcl (plus a 3) Hin (not_eq_sym Hadj)). aord.
        * destruct Hin as [Hin|Hin].
          -- exact (H7 ltac:(discriminate) Hadj Hin).
          -- apply Hr in Hin. destruct (T_range HT (la y)) as (Q1 & Q2 & _).
             { rewrite Eg. apply (fps_in y); [now left|apply fp_la]. }
             destruct Hin as (Hin & _). aord. }
  subst k. unfold insert_list. cbn [with_max m_first m_last m_unwind m_prod m_count m_depth m_max length Nat.eqb].
  rewrite (T_first HT), (T_last HT). unfold K in HK. rewrite (T_first HT) in HK.
  destruct (gk g) as [|y l] eqn:Eg.
  - cbn [hda]. eexists _, m. split; [reflexivity|]. cbn [hda] in HK. split; [|cbn; auto].
    apply HK; auto.
  - destruct (lsta_some (y :: l)) as (pre & t & E & El); [discriminate|]. cbn [hda]. rewrite El.
    destruct (splice m (y :: l) (u :: r)) with (z := la t) (u := u) (r := r) as (ty & Hty & Hsp); auto.
    { rewrite <- Eg. apply HT. }
    unfold set_sibling. cbn [hda]. rewrite Hty. eexists _, _. split; [reflexivity|].
    assert (Hw : forall w, w <> la t -> write (la t) (WLink (Some (la u)) ty false) m w = m w) by (intros; now apply write_other).
    assert (Hin : In (la t) (fps (y :: l))) by now apply lsta_fps.
    split; [|cbn; split; [reflexivity|split; [reflexivity|]]].
    + apply HK; auto. intros w Hn. apply Hw. intros ->. now apply Hn.
    + intros w Hlt. apply Hw. intros ->. pose proof (T_range HT (la t)) as Q. rewrite Eg in Q. destruct (Q Hin) as (Q1 & _). aord.
Qed.

(** ** The frames below the active one *)
Inductive Under (m : memory) (root : addr) : gf -> marker -> nat -> addr -> list marker -> list (option gf) -> Prop :=
| U_root g k i : gp g = Some (root, i) -> m_unwind k = plus root 3 -> Under m root g k 0 (plus root 3) [] []
| U_trans g k d base k' ks st : Under m root g k d base ks st -> m_prod k' = m_prod k ->
    Under m root g k d base (k' :: ks) (None :: st)
| U_prod g k d base a i g' k' base' ks st :
    gp g = Some (a, i) -> m_unwind k = a -> base = plus a 3 -> Top m a k' g' d base' -> Under m root g' k' d base' ks st ->
    Under m root g k (S d) base (k' :: ks) (Some g' :: st)
| U_cont g k d base g' k' base' ks st :
    gp g = None -> Top m (m_unwind k) k' g' d base' ->
    base = plus (m_unwind k) (if childless g' then 1 else 0) -> Under m root g' k' d base' ks st ->
    Under m root g k d base (k' :: ks) (Some g' :: st).

Lemma Under_same m root g k d base ks st g2 k2 :
  Under m root g k d base ks st -> gp g2 = gp g -> m_unwind k2 = m_unwind k -> m_prod k2 = m_prod k ->
  Under m root g2 k2 d base ks st.
Proof.
  intros H. revert g2 k2. induction H; intros g2 k2 Hg Hu Hp.
  - eapply U_root; [rewrite Hg; eassumption|congruence].
  - constructor; [auto|congruence].
  - eapply U_prod; [rewrite Hg; eassumption|congruence| | |]; eassumption.
  - eapply U_cont; [congruence|rewrite Hu; eassumption|rewrite Hu; eassumption|eassumption].
Qed.

Lemma Under_base m root g k d base ks st : Under m root g k d base ks st -> ale (m_unwind k) base.
Proof.
  induction 1 as [g k i E Hu|g k d base k' ks st _ IH _|g k d base a i g' k' base' ks st E Hu Hb _ _ _|g k d base g' k' base' ks st E _ Hb _ _].
  - rewrite Hu. aord.
  - exact IH.
  - subst base. rewrite Hu. aord.
  - subst base. destruct (childless g'); aord.
Qed.

Lemma Under_agree m m' root g k d base ks st :
  Under m root g k d base ks st -> (forall w, alt w (m_unwind k) -> m' w = m w) ->
  Under m' root g k d base ks st.
Proof.
  intros H. revert m'. induction H; intros m' Ha.
  - econstructor; eauto.
  - constructor; auto.
  - assert (Ht : Top m' a k' g' d base').
    { eapply Top_agree; eauto; [intros w Hw; apply Ha; now rewrite H0|aord|].
      intros Hc. unfold childless in Hc. destruct (gp g') as [[a' i']|] eqn:E; [|discriminate].
      destruct (gk g') eqn:Ek; [|discriminate]. destruct (T_node H2 _ _ E) as (_ & _ & _ & _ & _ & Hs & _). auto. }
    econstructor; eauto. apply IHUnder. intros w Hw. apply Ha.
    pose proof (T_base H2). pose proof (Under_base _ _ _ _ _ _ _ _ H3). rewrite H0. aord.
  - assert (Ht : Top m' (m_unwind k) k' g' d base').
    { eapply Top_agree; eauto; [aord|].
      intros Hc. unfold childless in Hc. destruct (gp g') as [[a' i']|] eqn:E; [|discriminate].
      destruct (gk g') eqn:Ek; [|discriminate]. destruct (T_node H0 _ _ E) as (_ & _ & _ & _ & _ & Hs & _). auto. }
    econstructor; eauto. apply IHUnder. intros w Hw. apply Ha.
    pose proof (T_base H0). pose proof (Under_base _ _ _ _ _ _ _ _ H2). aord.
Qed.

(** ** The buffer *)
Definition buf_ok (b : buffer) : Prop := snd (b_top b) <= cap /\ fst (b_top b) < b_blocks b.

Lemma reserve_ok n b : n <= cap -> buf_ok b ->
  let b' := reserve cap n b in
  buf_ok b' /\ b_mem b' = b_mem b /\ ale (b_top b) (b_top b') /\ snd (b_top b') + n <= cap.
Proof.
  intros Hn (H1 & H2). unfold reserve, remaining, buf_ok. destruct (cap - snd (b_top b) <? n) eqn:E.
  - cbn. repeat split; try lia. aord.
  - apply Nat.ltb_ge in E. repeat split; try lia. aord.
Qed.

Lemma allocate_ok n b : buf_ok b -> snd (b_top b) + n <= cap ->
  exists b', allocate cap n b = Some (b_top b, b') /\ buf_ok b' /\ b_mem b' = b_mem b /\ b_top b' = plus (b_top b) n /\ b_blocks b' = b_blocks b.
Proof.
  intros (H1 & H2) Hn. unfold allocate, remaining. replace (n <=? cap - snd (b_top b)) with true by (symmetry; apply Nat.leb_le; lia).
  eexists. split; [reflexivity|]. unfold buf_ok. cbn. repeat split; lia.
Qed.

Lemma unwind_ok mk b : buf_ok b -> ale mk (b_top b) -> snd mk < cap \/ fst mk <> fst (b_top b) ->
  let b' := unwind cap mk b in
  buf_ok b' /\ b_mem b' = b_mem b /\ ale mk (b_top b') /\ snd (b_top b') < cap.
Proof.
  intros (H1 & H2) Hm Hs. unfold unwind, buf_ok. cbn [b_top b_blocks b_mem].
  destruct (fst mk =? fst (b_top b)) eqn:E; [apply Nat.eqb_eq in E|apply Nat.eqb_neq in E]; cbn [andb].
  - destruct (snd mk <? cap) eqn:E2; [apply Nat.ltb_lt in E2|apply Nat.ltb_ge in E2]; cbn [andb]; [|exfalso; lia].
    repeat split; try lia. aord.
  - cbn. repeat split; try lia. aord.
Qed.

(** ** The invariant *)
Definition frames_below (g : gf) (st : list (option gf)) : nat :=
  below (map erase (gk g)) + list_sum (map (fun o => match o with Some g => below (map erase (gk g)) | None => 0 end) st).

Record Inv (t : builder) (ks : list marker) (g : gf) (st : list (option gf)) (extra : nat) : Prop := {
  I_buf : buf_ok (t_buf t);
  I_state : exists d base, Top (mem_of t) (b_top (t_buf t)) (t_cur t) g d base /\ Under (mem_of t) (t_root t) g (t_cur t) d base ks st;
  I_size : t_size t = 1 + frames_below g st + extra;
  I_depth : t_depth t = 0
}.

Definition erase_st (g : gf) (st : list (option gf)) : state := (erase_gf g, map (option_map erase_gf) st).

Definition Steps (c : call) (t : builder) (ks : list marker) (x' : state) (extra : nat) : Prop :=
  exists t' ks' g' st', do_call cap c (t, ks) = Some (t', ks') /\ Inv t' ks' g' st' extra /\ erase_st g' st' = x' /\
    t_root t' = t_root t.



(** *** token *)
Lemma childless_top m hi k g d base : Top m hi k g d base -> childless g = true -> snd hi < cap.
Proof.
  intros H Hc. unfold childless in Hc. destruct (gp g) as [[a' i']|] eqn:E; [|discriminate].
  destruct (gk g) eqn:Ek; [|discriminate]. destruct (T_node H _ _ E) as (_ & _ & _ & _ & _ & Hs & _). auto.
Qed.

Lemma Under_fresh m m' root g k d base ks st hi :
  Under m root g k d base ks st -> Top m hi k g d base -> (forall w, alt w hi -> m' w = m w) ->
  Under m' root g k d base ks st.
Proof.
  intros HU HT Ha. eapply Under_agree; eauto. intros w Hw. apply Ha.
  pose proof (T_base HT). pose proof (Under_base _ _ _ _ _ _ _ _ HU). aord.
Qed.


Lemma step_new_token k b e t ks g st extra :
  Inv t ks g st extra -> b <= e -> 
  exists t', match allocate cap 3 (reserve cap 3 (t_buf t)) with
    | None => None
    | Some (a, buf) =>
        match insert (t_cur t) a (put_token a k b e (b_mem buf)) with
        | None => None
        | Some (cur, m) => Some (Builder (set_mem m buf) (t_root t) (t_size t) (t_depth t) cur)
        end
    end = Some t' /\
    (exists a, Inv t' ks (Gf (gp g) (gk g ++ [LT a k b e])) st extra) /\ t_root t' = t_root t.
Proof.
  intros [Hb (d & base & HT & HU) Hs Hd] Hbe.
  destruct (reserve_ok 3 (t_buf t)) as (R1 & R2 & R3 & R4); [lia|exact Hb|].
  destruct (allocate_ok 3 _ R1 R4) as (b' & E & A1 & A2 & A3 & _). rewrite E.
  set (a := b_top (reserve cap 3 (t_buf t))) in *.
  set (m1 := put_token a k b e (b_mem b')).
  assert (Hag : forall w, alt w (b_top (t_buf t)) -> m1 w = mem_of t w).
  { intros w Hw. unfold m1. rewrite put_token_other, A2, R2; [reflexivity|]. eapply node_above; eauto. }
  assert (HT1 : Top m1 (b_top (t_buf t)) (t_cur t) g d base).
  { eapply Top_agree; eauto; [aord|]. eapply childless_top; eauto. }
  assert (HU1 : Under m1 (t_root t) g (t_cur t) d base ks st) by (eapply Under_fresh; eauto).
  rewrite insert_as_list.
  destruct (append_ok m1 (b_top (t_buf t)) (plus a 3) (t_cur t) (t_cur t) g d base [LT a k b e] 0) as (k' & m' & E' & P1 & P2 & P3 & P4); auto.
  - now rewrite with_max_same.
  - discriminate.
  - now apply put_token_kids.
  - right. cbn. lia.
  - intros w Hw. cbn in Hw. repeat destruct Hw as [Hw|Hw]; try tauto; subst w; repeat split; aord.
  - aord.
  - intros _ w Hw Hne. cbn [hda la] in Hne. cbn in Hw. repeat destruct Hw as [Hw|Hw]; try tauto; subst w; [congruence|aord|aord].
  - cbn [length hda lsta la] in E'. rewrite E'. eexists. split; [reflexivity|]. split; [|reflexivity]. exists a.
    constructor; cbn [t_buf t_root t_cur t_size t_depth mem_of set_mem b_mem b_top].
    + exact A1.
    + exists d, base. rewrite A3. split; [exact P1|].
      eapply (Under_same _ _ g); [|reflexivity|exact P2|exact P3]. eapply Under_agree; [exact HU1|].
      intros w Hw. apply P4. pose proof (Under_base _ _ _ _ _ _ _ _ HU). aord.
    + rewrite Hs. unfold frames_below. cbn [gk]. rewrite map_app, below_app. cbn. lia.
    + exact Hd.
Qed.

Lemma last_error m k g d base hi : Top m hi k g d base ->
  ends_in_error k m = match rev (map erase (gk g)) with TTok KError _ _ :: _ => true | _ => false end.
Proof.
  intros HT. unfold ends_in_error. rewrite (T_last HT). destruct (gk g) as [|x l] eqn:E; [reflexivity|].
  destruct (lsta_some (x :: l)) as (pre & t & E' & El); [discriminate|]. rewrite El, E', map_app, rev_app_distr. cbn [map rev app].
  destruct (T_kids HT) as (_ & Hr & _). rewrite E, E' in Hr. apply Forall_app in Hr. destruct Hr as [_ Hr].
  inversion Hr as [|? ? Ht _]; subst. destruct t as [a tk b e|a id tok kids]; cbn [la erase] in *.
  - destruct Ht as (H1 & H2 & H3 & _). rewrite H1. unfold token_kind. rewrite H3. now destruct tk.
  - apply rep_prod in Ht. destruct Ht as (H1 & _). now rewrite H1.
Qed.

(** Extending the last token. *)
Lemma step_merge b0 e0 e t ks g st extra pre a :
  Inv t ks g st extra -> gk g = pre ++ [LT a KError b0 e0] -> b0 <= e ->
  exists t', match m_last (t_cur t) with
    | None => None
    | Some l =>
        match update_end l e (mem_of t) with
        | None => None
        | Some m => Some (Builder (set_mem m (t_buf t)) (t_root t) (t_size t) (t_depth t) (t_cur t))
        end
    end = Some t' /\ Inv t' ks (Gf (gp g) (pre ++ [LT a KError b0 e])) st extra /\ t_root t' = t_root t.
Proof.
  intros [Hb (d & base & HT & HU) Hs Hd] Eg Hbe. rewrite (T_last HT), Eg, lsta_snoc. cbn [la].
  destruct (T_kids HT) as (Hc & Hr & Hn). rewrite Eg in *. apply Forall_app in Hr. destruct Hr as [Hr1 Hr2].
  inversion Hr2 as [|? ? Ht _]; subst. pose proof Ht as (Q1 & Q2 & Q3 & Q4). unfold update_end. rewrite Q2, Q3.
  set (m' := write (plus a 2) (WEnd (e - b0) KError) (mem_of t)).
  eexists. split; [reflexivity|]. split; [|reflexivity].
  rewrite fps_snoc in Hn. destruct (NoDup_app_inv _ _ Hn) as (N1 & N2 & N3).
  assert (Hfp : fps (pre ++ [LT a KError b0 e]) = fps (pre ++ [LT a KError b0 e0])) by (rewrite !fps_snoc; reflexivity).
  assert (Hal : hda (pre ++ [LT a KError b0 e]) = hda (pre ++ [LT a KError b0 e0])) by (destruct pre; reflexivity).
  assert (Hin : In (plus a 2) (fps (gk g))) by (rewrite Eg, fps_snoc; apply in_or_app; right; cbn; auto).
  destruct (T_range HT _ Hin) as (B1 & B2 & B3).
  constructor; cbn [t_buf t_root t_cur t_size t_depth mem_of set_mem b_mem b_top]; auto.
  - exists d, base. split.
    + constructor; cbn [gp gk].
      * exact (T_prod HT).
      * rewrite Hal, <- Eg. exact (T_first HT).
      * rewrite (T_last HT), Eg, !lsta_snoc. reflexivity.
      * destruct (T_depth HT) as (D1 & D2 & D3 & D4). rewrite Eg in *. rewrite app_length in D3. rewrite hts_app in D4.
        split; [exact D1|]. split; [exact D2|]. rewrite app_length, hts_app. split; [exact D3|exact D4].
      * split; [|split].
        -- assert (Hx : forall x, In x pre -> m' (la x) = mem_of t (la x)).
           { intros x Hx. apply write_other. intros Ex. apply (N3 (la x)); [apply (fps_in x _ Hx), fp_la|rewrite Ex; cbn; auto]. }
           clear - Hc Hx. induction pre as [|x pre IH]; [exact I|]. destruct pre as [|y pre]; cbn [app chain] in *.
           ++ destruct Hc as [[ty H] _]. split; [|exact I]. exists ty. rewrite Hx; [exact H|now left].
           ++ destruct Hc as [[ty H] Hc]. split; [exists ty; rewrite Hx; [exact H|now left]|]. apply IH; [exact Hc|].
              intros z Hz. apply Hx. now right.
        -- apply Forall_app. split.
           ++ eapply reps_agree; [|exact Hr1]. intros w Hw. apply write_other. intros ->. apply (N3 _ Hw). cbn; auto.
           ++ constructor; [|constructor]. cbn [rep]. unfold m', type_of. rewrite !write_other by aneq. rewrite write_same. auto.
        -- rewrite Hfp, fps_snoc. exact Hn.
      * intros w Hw. rewrite Hfp, <- Eg in Hw. exact (T_range HT w Hw).
      * exact (T_base HT).
      * intros a' i E. destruct (T_node HT a' i E) as (H1 & H2 & H3 & H4 & H5 & H6 & H7). subst base.
        unfold m'. rewrite !write_other by aneq. unfold adjacent in *. rewrite Hfp, Hal, <- Eg. repeat split; auto.
        -- intros Hnil. apply app_eq_nil in Hnil. now destruct Hnil.
        -- intros _. apply H7. rewrite Eg. intros Hnil. apply app_eq_nil in Hnil. now destruct Hnil.
    + eapply Under_same with (g := g); [|reflexivity|reflexivity|reflexivity]. eapply Under_agree; [exact HU|].
      intros w Hw. apply write_other. intros ->. pose proof (Under_base _ _ _ _ _ _ _ _ HU). aord.
  - rewrite Hs. unfold frames_below. rewrite Eg. cbn [gk]. rewrite !map_app, !below_app. reflexivity.
Qed.

Lemma step_token k b e t ks g st extra x' :
  Inv t ks g st extra -> spec_call (CToken k b e) (erase_st g st) = Some x' ->
  Steps (CToken k b e) t ks x' extra.
Proof.
  intros HI. unfold spec_call, erase_st, Steps. cbn [do_call]. unfold spec_token, add_token.
  destruct (ignore_if_empty k && (b =? e)).
  { intros [= <-]. exists t, ks, g, st. auto. }
  destruct (I_state _ _ _ _ _ HI) as (d & base & HT & HU).
  rewrite (last_error _ _ _ _ _ _ HT). change (f_kids (erase_gf g)) with (map erase (gk g)).
  assert (Hnew : (if b <=? e then Some (add [TTok k b e] (erase_gf g)) else None) = Some (fst x') -> snd x' = map (option_map erase_gf) st ->
    exists t' ks' g' st', match (match allocate cap 3 (reserve cap 3 (t_buf t)) with
      | None => None
      | Some (a, buf) =>
          match insert (t_cur t) a (put_token a k b e (b_mem buf)) with
          | None => None
          | Some (cur, m) => Some (Builder (set_mem m buf) (t_root t) (t_size t) (t_depth t) cur)
          end
      end) with Some t => Some (t, ks) | None => None end = Some (t', ks') /\ Inv t' ks' g' st' extra /\
      erase_st g' st' = x' /\ t_root t' = t_root t).
  { destruct (b <=? e) eqn:Hbe; [apply Nat.leb_le in Hbe|discriminate]. intros Hx Hy. injection Hx as Hx.
    destruct (step_new_token k b e t ks g st extra HI Hbe) as (t' & E & (a & HI') & Hr).
    rewrite E. exists t', ks, (Gf (gp g) (gk g ++ [LT a k b e])), st. split; [reflexivity|]. split; [exact HI'|]. split; [|exact Hr].
    destruct x' as [f' st']. cbn [fst snd] in *. subst. unfold erase_st, erase_gf, add. cbn [gp gk f_prod f_kids]. now rewrite map_app. }
  destruct k; cbn [andb];
    try (intros H; apply Hnew; (destruct (b <=? e); [|discriminate]; injection H as <-; reflexivity)).
  destruct (rev (map erase (gk g))) as [|u r] eqn:Er.
  { intros H; apply Hnew; (destruct (b <=? e); [|discriminate]; injection H as <-; reflexivity). }
  destruct u as [uk ub ue|uid utok ukids];
    [|intros H; apply Hnew; (destruct (b <=? e); [|discriminate]; injection H as <-; reflexivity)].
  destruct uk; try (intros H; apply Hnew; (destruct (b <=? e); [|discriminate]; injection H as <-; reflexivity)).
  destruct (ub <=? e) eqn:Hbe; [apply Nat.leb_le in Hbe|discriminate]. intros [= <-].
  assert (exists pre a, gk g = pre ++ [LT a KError ub ue] /\ map erase pre = rev r) as (pre & a & Eg & Ep).
  { destruct (gk g) as [|x l] eqn:E; [discriminate|].
    destruct (lsta_some (x :: l)) as (pre & t0 & E' & _); [discriminate|]. rewrite E' in Er |- *.
    rewrite map_app, rev_app_distr in Er. cbn [map rev app] in Er. injection Er as Er1 Er2.
    destruct t0 as [a tk tb te|]; [|discriminate]. cbn in Er1. injection Er1 as -> -> ->. exists pre, a. split; [reflexivity|].
    rewrite <- (rev_involutive (map erase pre)). now rewrite Er2. }
  destruct (step_merge ub ue e t ks g st extra pre a HI Eg Hbe) as (t' & E & HI' & Hr).
  rewrite E. exists t', ks, (Gf (gp g) (pre ++ [LT a KError ub e])), st. split; [reflexivity|]. split; [exact HI'|]. split; [|exact Hr].
  unfold erase_st, erase_gf. cbn [gp gk f_prod f_kids]. rewrite map_app, Ep. reflexivity.
Qed.

(** *** start_production *)
Lemma step_start p t ks g st extra x' :
  Inv t ks g st extra -> spec_call (CStart p) (erase_st g st) = Some x' -> Steps (CStart p) t ks x' extra.
Proof.
  intros HI. unfold spec_call, erase_st, Steps. cbn [do_call]. unfold start_production.
  destruct HI as [Hb (d & base & HT & HU) Hs Hd].
  destruct (i_transparent p) eqn:Ep.
  { intros [= <-]. exists t, (t_cur t :: ks), g, (None :: st). split; [reflexivity|]. split; [|auto]. constructor; auto.
    exists d, base. split; [exact HT|]. constructor; auto. }
  intros [= <-].
  destruct (reserve_ok 4 (t_buf t)) as (R1 & R2 & R3 & R4); [lia|exact Hb|].
  destruct (allocate_ok 3 (reserve cap 4 (t_buf t)) R1) as (b' & E & A1 & A2 & A3 & _); [lia|]. rewrite E.
  set (a := b_top (reserve cap 4 (t_buf t))) in *.
  set (m1 := put_production a (i_id p) (i_token p) (b_mem b')).
  assert (Hag : forall w, alt w (b_top (t_buf t)) -> m1 w = mem_of t w).
  { intros w Hw. unfold m1. rewrite put_production_other, A2, R2; [reflexivity|]. eapply node_above; eauto. }
  eexists _, _, (Gf (Some (a, (i_id p, i_token p))) []), (Some g :: st). split; [reflexivity|]. split; [|auto].
  destruct (T_depth HT) as (D1 & _).
  constructor; cbn [t_buf t_root t_cur t_size t_depth mem_of set_mem b_mem b_top]; auto.
  - exists (S d), (plus a 3). rewrite A3, D1. split; [apply (Top_new (b_mem b')); [reflexivity|lia]|].
    eapply U_prod; [reflexivity|reflexivity|reflexivity| |].
    + eapply Top_agree; [exact HT|exact Hag|exact R3|]. intros _. lia.
    + eapply Under_fresh; eauto.
Qed.

Lemma Under_nil_prod m root g k d base st : Under m root g k d base [] st -> st = [].
Proof. inversion 1; auto. Qed.
Lemma Under_shape m root g k d base ks st : Under m root g k d base ks st -> length ks = length st.
Proof. induction 1; cbn; auto. Qed.

(** The production that is finished becomes one node. *)
Lemma close_top m hi k g d base a i : Top m hi k g d base -> gp g = Some (a, i) ->
  exists m', insert_children_into k a m = Some m' /\ kids_ok m' [LP a (fst i) (snd i) (gk g)] /\
    (forall w, In w (fp (LP a (fst i) (snd i) (gk g))) -> ale a w /\ alt w hi /\ snd w < cap) /\
    (forall w, In w (fp (LP a (fst i) (snd i) (gk g))) -> w <> a -> alt a w) /\
    (forall w, alt w a -> m' w = m w) /\ m' a = m a /\ ale (plus a 3) hi.
Proof.
  intros HT E. destruct (T_node HT a i E) as (H1 & H2 & H3 & H4 & H5 & H6 & H7). subst base.
  pose proof (T_base HT) as Hbase.
  destruct (close_kids m (gk g) a (fst i) (snd i) k) as (m' & Q1 & Q2 & Q3 & Q4 & Q5); auto.
  - exact (T_kids HT).
  - unfold type_of. now rewrite H2.
  - intros w Hw Hin. apply (T_range HT) in Hin. destruct Hin as (Hin & _). cbn in Hw. repeat destruct Hw as [Hw|Hw]; try tauto; aord.
  - exact (T_count HT).
  - exact (T_first HT).
  - exact (T_last HT).
  - exists m'. split; [exact Q1|].
    assert (Hfp : forall w, In w (fp (LP a (fst i) (snd i) (gk g))) -> ale a w /\ alt w hi /\ snd w < cap).
    { intros w Hw. cbn [fp] in Hw. apply in_app_or in Hw. destruct Hw as [Hw|Hw].
      - cbn in Hw. repeat destruct Hw as [Hw|Hw]; try tauto; subst w; repeat split; aord.
      - apply in_app_or in Hw. destruct Hw as [Hw|Hw].
        + destruct (gk g) as [|x l] eqn:Eg; [destruct Hw|]. rewrite <- Eg in *.
          destruct (adjacent a (gk g)) eqn:Ea; [destruct Hw|]. destruct Hw as [<-|[]].
          assert (Hx : In (la x) (fps (gk g))) by (rewrite Eg; apply (fps_in x); [now left|apply fp_la]).
          destruct (T_range HT _ Hx) as (X1 & X2 & X3).
          assert (la x <> plus a 3) by (unfold adjacent in Ea; apply opt_eqb_neq in Ea; rewrite Eg in Ea; cbn in Ea; congruence).
          assert (alt (plus a 3) (la x)).
          { assert (~ (fst (la x) = fst (plus a 3) /\ snd (la x) = snd (plus a 3))) by (intros [? ?]; apply H; now apply addr_ext). aord. }
          repeat split; aord.
        + destruct (T_range HT w Hw) as (X1 & X2 & X3). repeat split; auto; aord. }
    split; [|split; [exact Hfp|]].
    + split; [exact I|]. split; [constructor; [exact Q2|constructor]|]. cbn [fps flat_map]. now rewrite app_nil_r.
    + split; [|split; [|split; [exact Q4|exact Hbase]]].
      * intros w Hw Hne. destruct (Hfp w Hw) as (X1 & _).
        assert (~ (fst w = fst a /\ snd w = snd a)) by (intros [? ?]; apply Hne; now apply addr_ext). aord.
      * intros w Hw. apply Q5. intros Hin. destruct (Hfp w Hin) as (X1 & _). aord.
Qed.

(** *** finish_production *)
Lemma step_finish t ks g st extra x' :
  Inv t ks g st extra -> spec_call CFinish (erase_st g st) = Some x' -> Steps CFinish t ks x' extra.
Proof.
  intros HI. unfold spec_call, erase_st, Steps. cbn [do_call].
  destruct HI as [Hb (d & base & HT & HU) Hs Hd].
  destruct st as [|[g'|] st]; cbn [map option_map]; [discriminate| |].
  - change (f_prod (erase_gf g)) with (option_map snd (gp g)). destruct (gp g) as [[a i]|] eqn:E; cbn [option_map]; [|discriminate].
    destruct i as [id tok]. intros [= <-].
    inversion HU as [|? ? ? ? ? ? ?|g0 k0 d' base0 a' i' g'' k' base' ks' st' Eg Hu Hbs HT' HU'|g0 k0 d' base0 g'' k' base' ks' st' Eg]; subst; [|congruence].
    rewrite E in Eg. injection Eg as Ea <-. subst a.
    unfold finish_production, prod_pre. rewrite (T_prod HT), E. cbn [option_map fst negb].
    rewrite (T_prod HT').
    replace (opt_eqb (option_map fst (gp g')) (Some (m_unwind (t_cur t)))) with false.
    2: { symmetry. apply opt_eqb_neq. destruct (gp g') as [[a0 i0]|] eqn:E0; cbn; [|discriminate]. intros [= Ea0]. subst a0.
         destruct (T_node HT' _ _ E0) as (X1 & _). pose proof (T_base HT'). subst base'. aord. }
    destruct (close_top _ _ _ _ _ _ (m_unwind (t_cur t)) (id, tok) HT E) as (m1 & C1 & C2 & C3 & C4 & C5 & C6 & C7). cbn [fst snd] in *.
    assert (HT1 : Top m1 (m_unwind (t_cur t)) k' g' d' base').
    { eapply Top_agree; [exact HT'|exact C5|aord|]. eapply childless_top; eauto. }
    assert (HU1 : Under m1 (t_root t) g' k' d' base' ks' st) by (eapply Under_fresh; eauto).
    unfold update_size_depth. cbn zeta. rewrite C1, insert_as_list.
    set (a := m_unwind (t_cur t)) in *. set (lp := LP a id tok (gk g)) in *.
    pose proof (T_depth HT) as (D1 & D2 & D3 & D4).
    assert (Hmax : (if m_max k' <? local_max (t_cur t) then local_max (t_cur t) else m_max k') = Nat.max (m_max k') (local_max (t_cur t))).
    { destruct (m_max k' <? local_max (t_cur t)) eqn:El; [apply Nat.ltb_lt in El|apply Nat.ltb_ge in El]; lia. }
    rewrite Hmax.
    destruct (append_ok m1 a (b_top (t_buf t)) (with_max (Nat.max (m_max k') (local_max (t_cur t))) k') k' g' d' base' [lp] (local_max (t_cur t)))
      as (k2 & m2 & E' & P1 & P2 & P3 & P4); auto.
    + discriminate.
    + left. rewrite D4. change (hts [lp]) with (Nat.max (S (height (erase lp))) 0). unfold lp. rewrite height_lp. lia.
    + intros w Hw. cbn [fps flat_map] in Hw. rewrite app_nil_r in Hw. now apply C3.
    + aord.
    + intros _ w Hw Hne. cbn [fps flat_map] in Hw. rewrite app_nil_r in Hw. apply C4; auto. cbn in Hne. congruence.
    + cbn [length hda lsta la lp] in E'. rewrite E'. eexists _, _, (Gf (gp g') (gk g' ++ [lp])), st. split; [reflexivity|]. split; [|split; [|reflexivity]].
      * constructor; cbn [t_buf t_root t_cur t_size t_depth mem_of set_mem b_mem b_top]; auto.
        -- exists d', base'. split; [exact P1|]. eapply (Under_same _ _ g'); [|reflexivity|exact P2|exact P3].
           eapply Under_agree; [exact HU1|]. intros w Hw. apply P4. pose proof (Under_base _ _ _ _ _ _ _ _ HU1). aord.
        -- rewrite Hs, D3. unfold frames_below. cbn [gk map list_sum]. rewrite map_app, below_app. cbn [map lp erase].
           rewrite below_one, map_length. unfold list_sum. cbn [fold_right]. lia.
      * unfold erase_st, erase_gf, add. cbn [gp gk f_prod f_kids lp]. rewrite map_app. reflexivity.
  - intros [= <-]. inversion HU as [|g0 k0 d0 base0 k' ks' st0 HU' Hp| |]; subst.
    unfold finish_production, prod_pre. rewrite Hp.
    assert (opt_eqb (m_prod (t_cur t)) (m_prod (t_cur t)) = true) as Ho by now apply opt_eqb_eq. rewrite Ho.
    exists t, ks', g, st.
    assert (Hpre : negb match m_prod (t_cur t) with Some _ => true | None => opt_eqb (m_prod (t_cur t)) None end = false) by (destruct (m_prod (t_cur t)); reflexivity).
    rewrite Hpre. split; [reflexivity|]. split; [|auto]. constructor; auto. exists d, base. auto.
Qed.

(** *** cancel_production *)
Lemma step_cancel t ks g st extra x' :
  Inv t ks g st extra -> spec_call CCancel (erase_st g st) = Some x' ->
  Steps CCancel t ks x' (lost CCancel (erase_st g st) + extra).
Proof.
  intros HI. unfold spec_call, erase_st, Steps. cbn [do_call].
  destruct HI as [Hb (d & base & HT & HU) Hs Hd].
  destruct st as [|[g'|] st]; cbn [map option_map lost]; [discriminate| |].
  - change (f_prod (erase_gf g)) with (option_map snd (gp g)). destruct (gp g) as [[a i]|] eqn:E; cbn [option_map]; [|discriminate].
    intros [= <-].
    inversion HU as [|? ? ? ? ? ? ?|g0 k0 d' base0 a' i' g'' k' base' ks' st' Eg Hu Hbs HT' HU'|g0 k0 d' base0 g'' k' base' ks' st' Eg]; subst; [|congruence].
    rewrite E in Eg. injection Eg as Ea <-. subst a.
    unfold cancel_production, prod_pre. rewrite (T_prod HT), E. cbn [option_map fst negb].
    rewrite (T_prod HT').
    replace (opt_eqb (Some (m_unwind (t_cur t))) (option_map fst (gp g'))) with false.
    2: { symmetry. apply opt_eqb_neq. destruct (gp g') as [[a0 i0]|] eqn:E0; cbn; [|discriminate]. intros [= Ea0]. subst a0.
         destruct (T_node HT' _ _ E0) as (X1 & _). pose proof (T_base HT'). subst base'. aord. }
    destruct (T_node HT _ _ E) as (N1 & _ & _ & _ & N5 & _). pose proof (T_base HT) as Hbase.
    destruct (unwind_ok (m_unwind (t_cur t)) (t_buf t)) as (W1 & W2 & W3 & W4); auto; [aord|left; lia|].
    eexists _, _, g', st. split; [reflexivity|]. split; [|auto].
    constructor; cbn [t_buf t_root t_cur t_size t_depth mem_of]; auto.
    + exists d', base'. unfold mem_of. cbn [t_buf]. rewrite W2. split; [|exact HU'].
      eapply Top_agree; [exact HT'|auto|exact W3|auto].
    + rewrite Hs. unfold frames_below, erase_gf. cbn [map f_kids list_sum fold_right]. unfold list_sum. lia.
  - intros [= <-]. inversion HU as [|g0 k0 d0 base0 k' ks' st0 HU' Hp| |]; subst.
    unfold cancel_production, prod_pre. rewrite Hp.
    assert (opt_eqb (m_prod (t_cur t)) (m_prod (t_cur t)) = true) as Ho by now apply opt_eqb_eq. rewrite Ho.
    exists t, ks', g, st.
    assert (Hpre : negb match m_prod (t_cur t) with Some _ => true | None => opt_eqb (m_prod (t_cur t)) None end = false) by (destruct (m_prod (t_cur t)); reflexivity).
    rewrite Hpre. split; [reflexivity|]. split; [|auto]. constructor; auto. exists d, base. auto.
Qed.

(** *** start_container *)
Lemma step_open t ks g st extra x' :
  Inv t ks g st extra -> spec_call COpen (erase_st g st) = Some x' -> Steps COpen t ks x' extra.
Proof.
  intros HI. unfold spec_call, erase_st, Steps. cbn [do_call]. intros [= <-].
  destruct HI as [Hb (d & base & HT & HU) Hs Hd]. unfold start_container.
  rewrite (T_prod HT), (T_count HT). destruct (T_depth HT) as (D1 & _). rewrite D1.
  assert (Hsize : t_size t = 1 + frames_below (Gf None []) (Some g :: st) + extra) by exact Hs.
  destruct (childless g) eqn:Ec.
  - pose proof (childless_top _ _ _ _ _ _ HT Ec) as Hcap. unfold childless in Ec.
    destruct (gp g) as [[a i]|] eqn:Ep; [|discriminate]. destruct (gk g) eqn:Ek; [|discriminate]. cbn [option_map length].
    destruct (allocate_ok 1 (t_buf t) Hb) as (b' & E & A1 & A2 & A3 & _); [lia|]. rewrite E.
    set (pos := b_top (t_buf t)) in *. set (m1 := write pos (WPtr None) (b_mem b')).
    assert (Hag : forall w, alt w pos -> m1 w = mem_of t w).
    { intros w Hw. unfold m1. rewrite write_other, A2; [reflexivity|]. intros ->. aord. }
    eexists _, _, (Gf None []), (Some g :: st). split; [reflexivity|]. split; [|auto].
    constructor; cbn [t_buf t_root t_cur t_size t_depth mem_of set_mem b_mem b_top]; auto.
    exists d, (plus pos 1). rewrite A3. split; [apply Top_container|].
    eapply U_cont; [reflexivity| | |].
    + cbn [m_unwind new_marker]. eapply Top_agree; [exact HT|exact Hag|aord|]. auto.
    + cbn [m_unwind new_marker]. unfold childless. now rewrite Ep, Ek.
    + eapply Under_fresh; eauto.
  - set (pos := b_top (t_buf t)) in *.
    assert (Heq : match option_map fst (gp g) with Some _ => match length (gk g) with O => false | _ => true end | None => true end = true).
    { unfold childless in Ec. destruct (gp g); [|reflexivity]. destruct (gk g); [discriminate|reflexivity]. }
    exists (Builder (t_buf t) (t_root t) (t_size t) (t_depth t) (new_marker pos d None)), (t_cur t :: ks), (Gf None []), (Some g :: st).
    split. { destruct (option_map fst (gp g)); [|reflexivity]. destruct (length (gk g)); [discriminate|reflexivity]. }
    split; [|auto].
    constructor; cbn [t_buf t_root t_cur t_size t_depth]; auto.
    exists d, pos. unfold mem_of. cbn [t_buf]. split; [apply Top_container|].
    eapply U_cont; [reflexivity| | |].
    + exact HT.
    + cbn [m_unwind new_marker]. rewrite Ec. apply addr_ext; cbn; lia.
    + exact HU.
Qed.

Lemma Under_container m root g k d base ks st : Under m root g k d base ks st -> gp g = None -> m_prod k = None ->
  forall g2 k2, gp g2 = None -> m_unwind k2 = m_unwind k -> m_prod k2 = None -> Under m root g2 k2 d base ks st.
Proof. intros H H1 H2 g2 k2 H3 H4 H5. eapply Under_same; eauto; congruence. Qed.

(** *** set_container_production *)
Lemma step_set p t ks g st extra x' :
  Inv t ks g st extra -> spec_call (CSet p) (erase_st g st) = Some x' -> Steps (CSet p) t ks x' extra.
Proof.
  intros HI. unfold spec_call, erase_st, Steps. cbn [do_call].
  change (f_prod (erase_gf g)) with (option_map snd (gp g)).
  pose proof HI as [Hb (d & base & HT & HU) Hs Hd]. unfold set_container_production. rewrite (T_prod HT).
  destruct (gp g) as [[a0 i0]|] eqn:E; [discriminate|]. cbn [option_map].
  destruct (i_transparent p) eqn:Ep.
  { intros [= <-]. exists t, ks, g, st. auto. }
  intros [= <-].
  destruct (reserve_ok 4 (t_buf t)) as (R1 & R2 & R3 & R4); [lia|exact Hb|].
  destruct (allocate_ok 3 (reserve cap 4 (t_buf t)) R1) as (b1 & E1 & A1 & A2 & A3 & _); [lia|]. rewrite E1.
  set (a := b_top (reserve cap 4 (t_buf t))) in *.
  set (m1 := put_production a (i_id p) (i_token p) (b_mem b1)).
  assert (Hb1 : buf_ok (set_mem m1 b1)) by exact A1.
  destruct (allocate_ok 1 (set_mem m1 b1) Hb1) as (b2 & E2 & B1 & B2 & B3 & _).
  { cbn [set_mem b_top]. rewrite A3. cbn. lia. }
  rewrite E2. cbn [set_mem b_top b_mem] in *.
  set (m2 := write (b_top b1) (WPtr None) (b_mem b2)).
  assert (Hm2 : forall w, ~ In w (node_words a) -> w <> plus a 3 -> m2 w = mem_of t w).
  { intros w H1 H2. unfold m2. rewrite write_other, B2 by (rewrite A3; auto). unfold m1. rewrite put_production_other by auto.
    now rewrite A2, R2. }
  assert (Hm1 : forall w, In w (node_words a) -> m2 w = m1 w).
  { intros w Hw. unfold m2. rewrite write_other, B2; [reflexivity|]. rewrite A3. intros ->. cbn in Hw.
    repeat destruct Hw as [Hw|Hw]; try tauto; aord. }
  assert (Hlow : forall w, alt w (b_top (t_buf t)) -> m2 w = mem_of t w).
  { intros w Hw. apply Hm2; [eapply node_above; eauto|]. intros ->. aord. }
  assert (HT2 : Top m2 (b_top (t_buf t)) (t_cur t) g d base).
  { eapply Top_agree; [exact HT|exact Hlow|aord|]. unfold childless. rewrite E. discriminate. }
  assert (Habove : forall w, In w (fps (gk g)) -> alt w a).
  { intros w Hw. destruct (T_range HT w Hw) as (_ & X & _). aord. }
  destruct (close_kids m2 (gk g) a (i_id p) (i_token p) (t_cur t)) as (m3 & Q1 & Q2 & Q3 & Q4 & Q5).
  - exact (T_kids HT2).
  - unfold type_of. rewrite Hm1 by (cbn; auto). unfold m1, put_production. rewrite !write_other by aneq. now rewrite write_same.
  - rewrite Hm1 by (cbn; auto). unfold m1, put_production. rewrite write_other by aneq. apply write_same.
  - rewrite Hm1 by (cbn; auto). apply write_same.
  - intros w Hw Hin. apply Habove in Hin. cbn in Hw. repeat destruct Hw as [Hw|Hw]; try tauto; aord.
  - intros _ _ Hin. apply Habove in Hin. aord.
  - exact (T_count HT).
  - exact (T_first HT).
  - exact (T_last HT).
  - unfold insert. cbn [new_marker m_first]. rewrite Q1.
    set (lp := LP a (i_id p) (i_token p) (gk g)) in *.
    assert (Hfp : forall w, In w (fp lp) -> ale base w /\ alt w (plus a 4) /\ snd w < cap).
    { pose proof (T_base HT) as Hbase. intros w Hw. unfold lp in Hw. cbn [fp] in Hw. apply in_app_or in Hw. destruct Hw as [Hw|Hw].
      - cbn in Hw. repeat destruct Hw as [Hw|Hw]; try tauto; subst w; repeat split; aord.
      - apply in_app_or in Hw. destruct Hw as [Hw|Hw].
        + assert (w = plus a 3) by (destruct (gk g); [destruct Hw|]; destruct (adjacent a _); [destruct Hw|]; destruct Hw as [Hw|[]]; auto).
          subst w. repeat split; aord.
        + destruct (T_range HT w Hw) as (X1 & X2 & X3). repeat split; auto; aord. }
    eexists _, ks, (Gf None [lp]), st. split; [reflexivity|]. split; [|split; [|reflexivity]].
    + pose proof (T_depth HT) as (D1 & D2 & D3 & D4). pose proof (T_base HT) as Hbase.
      constructor; cbn [t_buf t_root t_cur t_size t_depth mem_of set_mem b_mem b_top]; auto.
      * exists d, base. rewrite B3, A3. split.
        -- constructor; cbn [gp gk new_marker with_max m_prod m_first m_last].
           ++ reflexivity.
           ++ reflexivity.
           ++ reflexivity.
           ++ unfold depth_ok, local_max. cbn [with_max new_marker m_depth m_max m_count length].
              fold (local_max (t_cur t)). rewrite D4, D1. change (hts [lp]) with (Nat.max (S (height (erase lp))) 0).
              unfold lp. rewrite height_lp. change (0 <? 1) with true. rewrite andb_true_r.
              destruct (d =? S (d + hts (gk g))) eqn:Ed; [apply Nat.eqb_eq in Ed|apply Nat.eqb_neq in Ed]; repeat split; lia.
           ++ split; [exact I|]. split; [constructor; [exact Q2|constructor]|]. cbn [fps flat_map]. now rewrite app_nil_r.
           ++ intros w Hw. cbn [fps flat_map] in Hw. rewrite app_nil_r in Hw. destruct (Hfp w Hw) as (X1 & X2 & X3).
              repeat split; auto. aord.
           ++ aord.
           ++ discriminate.
        -- eapply (Under_same _ _ g (t_cur t)); [|now rewrite E|reflexivity|cbn; now rewrite (T_prod HT), E].
           eapply Under_agree; [exact HU|]. pose proof (Under_base _ _ _ _ _ _ _ _ HU).
           intros w Hw. rewrite Q5; [apply Hlow; aord|]. intros Hin. destruct (Hfp w Hin) as (X1 & _). aord.
      * rewrite Hs, D3. unfold frames_below. cbn [gk map lp erase].
        rewrite below_one, map_length. lia.
    + reflexivity.
Qed.


(** *** finish_container *)
Lemma step_close t ks g st extra x' :
  Inv t ks g st extra -> spec_call CClose (erase_st g st) = Some x' -> careful CClose (erase_st g st) = true ->
  Steps CClose t ks x' extra.
Proof.
  intros HI. unfold spec_call, erase_st, Steps. cbn [do_call].
  change (f_prod (erase_gf g)) with (option_map snd (gp g)).
  destruct HI as [Hb (d & base & HT & HU) Hs Hd].
  destruct st as [|[g'|] st]; cbn [map option_map]; [discriminate| |discriminate].
  destruct (gp g) as [[a i]|] eqn:E; [discriminate|]. cbn [option_map]. intros [= <-]. intros Hcare.
  inversion HU as [|? ? ? ? ? ? ?|g0 k0 d' base0 a' i' g'' k' base' ks' st' Eg Hu Hbs HT' HU'|g0 k0 d' base0 g'' k' base' ks' st' Eg HT' Hbs HU']; subst; [congruence|].
  unfold finish_container. rewrite (T_prod HT), E. cbn [option_map]. rewrite (T_count HT), (T_first HT), (T_last HT).
  pose proof (T_depth HT) as (D1 & D2 & D3 & D4). pose proof (T_base HT) as Hbase.
  assert (Hlow : ale (m_unwind (t_cur t)) (b_top (t_buf t))) by (destruct (childless g'); aord).
  assert (Hmax : forall n, (if n <? local_max (t_cur t) then local_max (t_cur t) else n) = Nat.max n (local_max (t_cur t))).
  { intros n. destruct (n <? local_max (t_cur t)) eqn:El; [apply Nat.ltb_lt in El|apply Nat.ltb_ge in El]; lia. }
  destruct (gk g) as [|x l] eqn:Eg'.
  - (* nothing to insert *)
    unfold insert_list. cbn [length Nat.eqb]. unfold update_size_depth. rewrite Hmax.
    change (hts []) with 0 in D4. rewrite Nat.add_0_r in D4.
    assert (Hk : with_max (Nat.max (m_max k') (local_max (t_cur t))) k' = k').
    { pose proof (T_depth HT') as (_ & D2' & _). rewrite D4, Nat.max_l by lia. destruct k'; reflexivity. }
    rewrite Hk. eexists _, _, g', st. split; [reflexivity|]. split; [|split; [|reflexivity]].
    + constructor; cbn [t_buf t_root t_cur t_size t_depth mem_of set_mem b_mem b_top]; auto.
      * exists d, base'. split; [|exact HU'].
        eapply Top_agree; [exact HT'|auto|exact Hlow|].
        intros Hc. exfalso. unfold childless in Hc. unfold careful, erase_gf in Hcare. cbn [f_prod f_kids] in Hcare.
        rewrite Eg' in Hcare. destruct (gp g'); [|discriminate]. destruct (gk g'); [|discriminate]. discriminate.
      * rewrite Hs. unfold frames_below. rewrite Eg'. reflexivity.
    + unfold erase_st, erase_gf, add. cbn [f_prod f_kids map]. now rewrite app_nil_r.
  - rewrite <- Eg' in *.
    set (k1 := with_max (Nat.max (m_max k') (local_max (t_cur t))) k').
    assert (Hne : gk g <> []) by (rewrite Eg'; discriminate).
    destruct (append_ok (mem_of t) (m_unwind (t_cur t)) (b_top (t_buf t)) k1 k' g' d base' (gk g) (local_max (t_cur t)))
      as (k2 & m2 & E' & P1 & P2 & P3 & P4); auto.
    + exact (T_kids HT).
    + intros w Hw. destruct (T_range HT w Hw) as (X1 & X2 & X3). repeat split; auto. destruct (childless g'); aord.
    + intros Hc w Hw _. destruct (T_range HT w Hw) as (X1 & X2 & X3). rewrite Hc in X1. aord.
    + (* the depth is set after the insertion *)
      assert (Hcomm : exists k3, insert_list k' (length (gk g)) (hda (gk g)) (lsta (gk g)) (mem_of t) = Some (k3, m2) /\
        with_max (Nat.max (m_max k3) (local_max (t_cur t))) k3 = k2).
      { revert E'. unfold insert_list, k1. cbn [with_max m_first m_last m_unwind m_prod m_count m_depth m_max].
        rewrite Eg'. cbn [length Nat.eqb hda]. destruct (m_first k').
        - destruct (m_last k'); [|discriminate]. destruct (set_sibling _ _ _); [|discriminate]. intros [= <- <-]. eexists. split; reflexivity.
        - intros [= <- <-]. eexists. split; reflexivity. }
      destruct Hcomm as (k3 & E3 & Ek3). rewrite E3. unfold update_size_depth. rewrite Hmax, Ek3.
      eexists _, _, (Gf (gp g') (gk g' ++ gk g)), st. split; [reflexivity|]. split; [|split; [|reflexivity]].
      * constructor; cbn [t_buf t_root t_cur t_size t_depth mem_of set_mem b_mem b_top]; auto.
        -- exists d, base'. split; [exact P1|]. eapply (Under_same _ _ g'); [|reflexivity|exact P2|exact P3].
           eapply Under_agree; [exact HU'|]. intros w Hw. apply P4. pose proof (Under_base _ _ _ _ _ _ _ _ HU'). aord.
        -- rewrite Hs. unfold frames_below. cbn [gk map list_sum fold_right]. rewrite map_app, below_app. unfold list_sum. lia.
      * unfold erase_st, erase_gf, add. cbn [gp gk f_prod f_kids]. now rewrite map_app.
Qed.

(** *** cancel_container *)
Lemma step_drop t ks g st extra x' :
  Inv t ks g st extra -> spec_call CDrop (erase_st g st) = Some x' -> careful CDrop (erase_st g st) = true ->
  Steps CDrop t ks x' (lost CDrop (erase_st g st) + extra).
Proof.
  intros HI. unfold spec_call, erase_st, Steps. cbn [do_call].
  change (f_prod (erase_gf g)) with (option_map snd (gp g)).
  destruct HI as [Hb (d & base & HT & HU) Hs Hd].
  destruct st as [|[g'|] st]; cbn [map option_map]; [discriminate| |discriminate].
  destruct (gp g) as [[a i]|] eqn:E; [discriminate|]. cbn [option_map]. intros [= <-]. intros Hcare.
  inversion HU as [|? ? ? ? ? ? ?|g0 k0 d' base0 a' i' g'' k' base' ks' st' Eg Hu Hbs HT' HU'|g0 k0 d' base0 g'' k' base' ks' st' Eg HT' Hbs HU']; subst; [congruence|].
  unfold cancel_container. rewrite (T_prod HT), E. cbn [option_map].
  pose proof (T_base HT) as Hbase.
  assert (Hw : exists w, ale (m_unwind (t_cur t)) w /\ alt w (b_top (t_buf t)) /\ snd w < cap).
  { unfold careful, erase_gf in Hcare. cbn [f_kids] in Hcare. rewrite map_length in Hcare.
    destruct (gk g) as [|x l] eqn:Eg'; [discriminate|]. exists (la x). destruct (T_range HT (la x)) as (X1 & X2 & X3).
    { rewrite Eg'. apply (fps_in x); [now left|apply fp_la]. }
    repeat split; auto. destruct (childless g'); aord. }
  destruct Hw as (w & W1 & W2 & W3).
  destruct (unwind_ok (m_unwind (t_cur t)) (t_buf t)) as (V1 & V2 & V3 & V4); auto; [aord| |].
  { destruct (Nat.eq_dec (fst (m_unwind (t_cur t))) (fst (b_top (t_buf t)))); [left|right; auto]. aord. }
  eexists _, _, g', st. split; [reflexivity|]. split; [|auto].
  constructor; cbn [t_buf t_root t_cur t_size t_depth mem_of lost]; auto.
  - exists d, base'. unfold mem_of. cbn [t_buf]. rewrite V2. split; [|exact HU'].
    eapply Top_agree; [exact HT'|auto|exact V3|auto].
  - rewrite Hs. unfold frames_below, erase_gf. cbn [map f_kids list_sum fold_right]. unfold list_sum. lia.
Qed.

Theorem step c t ks g st extra x' :
  Inv t ks g st extra -> spec_call c (erase_st g st) = Some x' -> careful c (erase_st g st) = true ->
  Steps c t ks x' (lost c (erase_st g st) + extra).
Proof.
  intros HI Hc Hcare. destruct c.
  - eapply step_start; eauto.
  - eapply step_finish; eauto.
  - eapply step_cancel; eauto.
  - eapply step_open; eauto.
  - eapply step_set; eauto.
  - eapply step_close; eauto.
  - eapply step_drop; eauto.
  - eapply step_token; eauto.
Qed.

Theorem steps cs t ks g st extra x' :
  Inv t ks g st extra -> spec_calls cs (erase_st g st) = Some x' -> careful_calls cs (erase_st g st) = true ->
  exists t' ks' g' st', do_calls cap cs (t, ks) = Some (t', ks') /\
    Inv t' ks' g' st' (lost_calls cs (erase_st g st) + extra) /\ erase_st g' st' = x' /\ t_root t' = t_root t.
Proof.
  revert t ks g st extra. induction cs as [|c cs IH]; intros t ks g st extra HI Hs Hc; cbn [spec_calls careful_calls do_calls lost_calls] in *.
  - injection Hs as <-. exists t, ks, g, st. auto.
  - destruct (spec_call c (erase_st g st)) as [x1|] eqn:E; [|discriminate].
    apply andb_true_iff in Hc. destruct Hc as [Hc1 Hc2].
    destruct (step c t ks g st extra x1 HI E Hc1) as (t1 & ks1 & g1 & st1 & E1 & HI1 & Ex & Hr).
    rewrite E1. rewrite <- Ex in *. destruct (IH _ _ _ _ _ HI1 Hs Hc2) as (t' & ks' & g' & st' & E2 & HI2 & Ex2 & Hr2).
    exists t', ks', g', st'. split; [exact E2|]. split; [|split; [exact Ex2|congruence]].
    replace (lost c (erase_st g st) + lost_calls cs (erase_st g1 st1) + extra) with
      (lost_calls cs (erase_st g1 st1) + (lost c (erase_st g st) + extra)) by lia. exact HI2.
Qed.
End Cap.
