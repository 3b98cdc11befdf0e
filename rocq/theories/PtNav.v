(** Finished trees, and moving around in them. *)
From Verif Require Import Prelude RuleModel PtModel PtSpec PtMem PtProofs.
Close Scope N_scope.

(** ** A finished tree in memory *)
Record Whole (m : memory) (lt : ltree) (eof : addr) (b e : nat) : Prop := {
  W_prod : exists a id tok kids, lt = LP a id tok kids;
  W_rep : rep m lt;
  W_nodup : NoDup (fp lt);
  W_root : m (la lt) = WLink (Some eof) true false;
  W_eof : rep m (LT eof KEof b e);
  W_eof_link : m eof = WLink None false true;
  W_disjoint : forall w, In w (fp lt) -> ~ In w (node_words eof)
}.

Lemma finish_ok cap t g extra b e :
  4 <= cap -> Inv cap t [] g [] extra -> b <= e ->
  exists tr lt eof, finish cap b e t = Some tr /\ p_root tr = Some (t_root t) /\ la lt = t_root t /\
    erase lt = TProd (match gp g with Some (_, (id, _)) => id | None => 0 end) (match gp g with Some (_, (_, tok)) => tok | None => false end) (map erase (gk g)) /\
    Whole (b_mem (p_buf tr)) lt eof b e /\
    (forall w, In w (fp lt ++ node_words eof) -> fst w < b_blocks (p_buf tr) /\ snd w < cap) /\
    p_size tr = nodes (erase lt) + extra /\ p_depth tr = height (erase lt).
Proof.
  intros Hcap [Hb (d & base & HT & HU) Hs Hd] Hbe.
  inversion HU as [g0 k0 i Eg Hu| | |]; subst. unfold finish.
  assert (Hp : m_prod (t_cur t) = Some (t_root t)) by (rewrite (T_prod _ _ _ _ _ _ _ HT), Eg; reflexivity). rewrite Hp.
  replace (opt_eqb (Some (t_root t)) (Some (t_root t))) with true by (symmetry; now apply opt_eqb_eq).
  set (a := t_root t) in *.
  destruct (close_top cap Hcap _ _ _ _ _ _ a i HT Eg) as (m1 & C1 & C2 & C3 & C4 & C5 & C6 & C7). rewrite C1.
  unfold update_size_depth. cbn zeta.
  destruct (reserve_ok cap Hcap 3 (set_mem m1 (t_buf t))) as (R1 & R2 & R3 & R4); [lia|exact Hb|].
  destruct (allocate_ok cap Hcap 3 _ R1 R4) as (b' & E & A1 & A2 & A3 & A4). rewrite E.
  set (eof := b_top (reserve cap 3 (set_mem m1 (t_buf t)))) in *.
  set (m2 := put_token eof KEof b e (b_mem b')).
  destruct (T_node _ _ _ _ _ _ _ HT a i Eg) as (_ & N2 & _).
  set (lt := LP a (fst i) (snd i) (gk g)) in *. cbn [set_mem b_top] in R3. cbn [set_mem b_mem] in R2.
  assert (Hdis : forall w, In w (fp lt) -> ~ In w (node_words eof)).
  { intros w Hw. eapply node_above; [exact R3|]. now apply C3. }
  assert (Hag : agree m1 m2 (fp lt)).
  { intros w Hw. unfold m2. rewrite put_token_other by now apply Hdis. now rewrite A2, R2. }
  destruct C2 as (_ & C2 & C2n). inversion C2 as [|? ? C2r _]; subst.
  cbn [fps flat_map] in C2n. rewrite app_nil_r in C2n.
  assert (Hrep : rep m2 lt) by (eapply rep_agree; eauto).
  assert (Hroot : m2 a = WLink None true true) by (rewrite Hag by apply (fp_la lt); rewrite C6; exact N2).
  unfold set_sibling. unfold type_of at 1. rewrite Hroot.
  eexists _, lt, eof. split; [reflexivity|]. cbn [p_buf p_root p_size p_depth set_mem b_mem b_blocks].
  split; [reflexivity|]. split; [reflexivity|]. split; [unfold lt; rewrite Eg; destruct i; reflexivity|].
  assert (Hea : forall w, In w (node_words eof) -> w <> a).
  { intros w Hw ->. apply (Hdis a); [apply (fp_la lt)|exact Hw]. }
  split; [|split; [|split]].
  - constructor.
    + unfold lt. eauto.
    + apply (rep_relink m2); auto.
      * intros w _ Hne. now apply write_other.
      * cbn [la lt]. unfold type_of. rewrite write_same, Hroot. reflexivity.
    + exact C2n.
    + apply write_same.
    + apply (rep_agree m2); [|now apply put_token_rep]. intros w Hw. apply write_other. now apply Hea.
    + rewrite write_other by (apply Hea; cbn; auto). unfold m2, put_token. rewrite !write_other by aneq. apply write_same.
    + exact Hdis.
  - intros w Hw. apply in_app_or in Hw. destruct A1 as (A1 & A1'). rewrite A3 in *. destruct Hw as [Hw|Hw].
    + destruct (C3 w Hw) as (X1 & X2 & X3). split; auto. aord.
    + cbn in Hw. repeat destruct Hw as [Hw|Hw]; try tauto; subst w; aord.
  - rewrite Hs, (T_count _ HT). unfold lt. cbn [erase nodes]. rewrite <- below_nodes. unfold frames_below.
    rewrite map_length. cbn. lia.
  - destruct (T_depth _ _ _ _ _ _ _ HT) as (_ & _ & _ & D4). rewrite Hd, D4. cbn [plus]. unfold lt. rewrite height_lp.
    change (0 + hts (gk g)) with (hts (gk g)). destruct (0 <? hts (gk g)) eqn:El; [reflexivity|]. apply Nat.ltb_ge in El. lia.
Qed.


Lemma start_ok cap old p : 4 <= cap -> wf_old old ->
  exists t, start cap old p = Some t /\
    Inv cap t [] (Gf (Some (t_root t, (i_id p, i_token p))) []) [] 0.
Proof.
  intros Hcap Hw. unfold start.
  assert (Hb : buf_ok cap (reset old) /\ snd (b_top (reset old)) = 0).
  { unfold reset, buf_ok. destruct (b_head old) as [h|] eqn:E; cbn; repeat split; try lia. now apply Hw. }
  destruct Hb as (Hb & Hz). destruct (allocate_ok cap Hcap 3 (reset old) Hb) as (b' & E & A1 & A2 & A3 & _); [lia|].
  rewrite E. eexists. split; [reflexivity|]. cbn [t_root]. set (a := b_top (reset old)) in *.
  constructor; cbn [t_buf t_root t_cur t_size t_depth mem_of set_mem b_mem b_top]; auto.
  exists 0, (plus a 3). rewrite A3. split; [|eapply U_root; reflexivity].
  assert (HT := Top_new cap Hcap (b_mem b') _ a p 0 eq_refl). rewrite Hz in HT. specialize (HT ltac:(lia)).
  constructor; cbn [gp gk]; [reflexivity|reflexivity|reflexivity| | | | |].
  - repeat split; auto.
  - apply kids_of_nil.
  - intros w [].
  - aord.
  - exact (T_node _ _ _ _ _ _ _ HT).
Qed.

Theorem build_ok cap old root cs b e st :
  4 <= cap -> wf_old old -> b <= e ->
  spec_tree root cs = Some st ->
  careful_calls cs (Frame (Some (i_id root, i_token root)) [], []) = true ->
  exists tr lt eof, build cap old root cs b e = Some tr /\ p_root tr = Some (la lt) /\ erase lt = st /\
    Whole (b_mem (p_buf tr)) lt eof b e /\
    (forall w, In w (fp lt ++ node_words eof) -> fst w < b_blocks (p_buf tr) /\ snd w < cap) /\
    p_size tr = nodes st + lost_calls cs (Frame (Some (i_id root, i_token root)) [], []) /\ p_depth tr = height st.
Proof.
  intros Hcap Hw Hbe Hs Hc. unfold spec_tree in Hs.
  destruct (spec_calls _ _) as [[f [|]]|] eqn:E; try discriminate. injection Hs as <-.
  destruct (start_ok cap old root Hcap Hw) as (t & Et & HI). unfold build. rewrite Et.
  destruct (steps cap Hcap cs t [] _ [] 0 (f, []) HI) as (t' & ks' & g' & st' & E1 & HI1 & Ex & Hr); [exact E|exact Hc|].
  rewrite E1. unfold erase_st in Ex. injection Ex as Ex1 Ex2.
  destruct st' as [|? ?]; [|discriminate].
  pose proof HI1 as [_ (d & base & HT & HU) _ _]. pose proof (Under_shape _ _ _ _ _ _ _ _ _ HU) as Hl.
  destruct ks' as [|? ?]; [|discriminate].
  destruct (finish_ok cap t' g' _ b e Hcap HI1 Hbe) as (tr & lt & eof & F1 & F2 & F3 & F4 & F5 & F6 & F7 & F8).
  rewrite F1. exists tr, lt, eof.
  (* the production of the root frame never changes *)
  assert (Hgp : f_prod f = Some (i_id root, i_token root)).
  { clear - E. remember (Frame (Some (i_id root, i_token root)) [], []) as x0 eqn:Ex0.
    assert (Hx0 : f_prod (last (map (fun o => match o with Some f => f | None => fst x0 end) (snd x0)) (fst x0)) = Some (i_id root, i_token root)) by (subst; reflexivity).
    assert (H : forall cs x y, spec_calls cs x = Some y ->
      (forall d0, (exists l, filter (fun o => match o with Some _ => true | None => false end) (snd x) = l ++ [Some d0]) ->
         f_prod d0 = Some (i_id root, i_token root)) ->
      (filter (fun o => match o with Some _ => true | None => false end) (snd x) = [] -> f_prod (fst x) = Some (i_id root, i_token root)) ->
      snd y = [] -> f_prod (fst y) = Some (i_id root, i_token root)).
    { clear. induction cs as [|c cs IH]; intros [f st] y Hs H1 H2 H3; cbn [spec_calls] in Hs.
      - injection Hs as <-. cbn [fst snd] in *. apply H2. rewrite H3. reflexivity.
      - destruct (spec_call c (f, st)) as [x1|] eqn:E; [|discriminate]. cbn [fst snd] in *.
        eapply IH; [exact Hs| | |exact H3]; clear IH Hs H3.
        + intros d0 (l & Hl). unfold spec_call in E. destruct c.
          * destruct (i_transparent p); injection E as <-; cbn [fst snd filter] in *; [eauto|].
            destruct l as [|o l]; cbn [app] in Hl; injection Hl as Hl1 Hl2.
            -- subst. auto.
            -- subst. eauto.
          * destruct st as [|[g|] st]; [discriminate| |injection E as <-; cbn in *; eauto].
            destruct (f_prod f) as [[? ?]|]; [|discriminate]. injection E as <-. cbn [fst snd filter] in *.
            apply H1. exists (Some g :: l). cbn. now rewrite Hl.
          * destruct st as [|[g|] st]; [discriminate| |injection E as <-; cbn in *; eauto].
            destruct (f_prod f) as [[? ?]|]; [|discriminate]. injection E as <-. cbn [fst snd filter] in *.
            apply H1. exists (Some g :: l). cbn. now rewrite Hl.
          * injection E as <-. cbn [fst snd filter] in *.
            destruct l as [|o l]; cbn [app] in Hl; injection Hl as Hl1 Hl2.
            -- subst. auto.
            -- subst. eauto.
          * destruct (f_prod f); [discriminate|]. destruct (i_transparent p); injection E as <-; cbn [fst snd] in *; eauto.
          * destruct st as [|[g|] st]; [discriminate| |discriminate].
            destruct (f_prod f) as [[? ?]|]; [discriminate|]. injection E as <-. cbn [fst snd filter] in *.
            apply H1. exists (Some g :: l). cbn. now rewrite Hl.
          * destruct st as [|[g|] st]; [discriminate| |discriminate].
            destruct (f_prod f) as [[? ?]|]; [discriminate|]. injection E as <-. cbn [fst snd filter] in *.
            apply H1. exists (Some g :: l). cbn. now rewrite Hl.
          * destruct (spec_token _ _ _ _); [|discriminate]. injection E as <-. cbn in *; eauto.
        + intros Hl. unfold spec_call in E. destruct c.
          * destruct (i_transparent p); injection E as <-; cbn [fst snd filter] in *; [auto|discriminate].
          * destruct st as [|[g|] st]; [discriminate| |injection E as <-; cbn in *; eauto].
            destruct (f_prod f) as [[? ?]|]; [|discriminate]. injection E as <-. cbn [fst snd filter add f_prod] in *.
            apply H1. exists []. cbn. now rewrite Hl.
          * destruct st as [|[g|] st]; [discriminate| |injection E as <-; cbn in *; eauto].
            destruct (f_prod f) as [[? ?]|]; [|discriminate]. injection E as <-. cbn [fst snd filter] in *.
            apply H1. exists []. cbn. now rewrite Hl.
          * injection E as <-. discriminate.
          * destruct (f_prod f) eqn:Ef; [discriminate|]. cbn [fst snd] in *.
            destruct (i_transparent p); injection E as <-; cbn [fst snd] in *; specialize (H2 Hl); congruence.
          * destruct st as [|[g|] st]; [discriminate| |discriminate].
            destruct (f_prod f) as [[? ?]|]; [discriminate|]. injection E as <-. cbn [fst snd filter add f_prod] in *.
            apply H1. exists []. cbn. now rewrite Hl.
          * destruct st as [|[g|] st]; [discriminate| |discriminate].
            destruct (f_prod f) as [[? ?]|]; [discriminate|]. injection E as <-. cbn [fst snd filter] in *.
            apply H1. exists []. cbn. now rewrite Hl.
          * destruct (spec_token k b e f) as [f'|] eqn:Et; [|discriminate]. injection E as <-. cbn [fst snd] in *.
            unfold spec_token in Et. specialize (H2 Hl).
            destruct (ignore_if_empty k && (b =? e)); [injection Et as <-; exact H2|].
            destruct k; destruct (rev (f_kids f)) as [|[[]|] ]; repeat (destruct (_ <=? _); try discriminate); injection Et as <-; exact H2. }
    eapply (H cs x0 (f, [])); eauto.
    - subst x0. intros d0 (l & Hl). cbn in Hl. destruct l; discriminate.
    - subst x0. reflexivity. }
  assert (Est : erase lt = TProd (i_id root) (i_token root) (f_kids f)).
  { rewrite F4. rewrite <- Ex1 in Hgp |- *. unfold erase_gf in *. cbn [f_prod f_kids] in *.
    destruct (gp g') as [[a0 [id0 tok0]]|]; cbn [option_map snd] in Hgp; [|discriminate]. injection Hgp as -> ->. reflexivity. }
  rewrite <- Est. split; [reflexivity|]. split; [congruence|]. split; [reflexivity|]. split; [exact F5|]. split; [exact F6|].
  split; [rewrite F7, Nat.add_0_r; reflexivity|exact F8].
Qed.
