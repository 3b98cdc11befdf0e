(** What is drawn. *)
From Coq Require Import String Ascii.
From Verif Require Import Prelude CodecModel CodecSpec LitModel ClassSpec LocSpec RuleModel
  PtModel PtSpec PtMem PtProofs PtNav PtWalk PtActSpec PtMain VisModel VisSpec VisProofs VisText VisShow VisInj VisMain
  RepModel RepSpec RepProofs RepMain TvModel TvSpec TvProofs.
Close Scope string_scope.
Open Scope N_scope.

(** ** The array *)
Lemma store_ok arr : forall i v, (i < length arr)%nat -> exists arr', store arr i v = Some arr' /\
  length arr' = length arr /\ nth_error arr' i = Some v /\ forall j, (j < i)%nat -> nth_error arr' j = nth_error arr j.
Proof.
  induction arr as [|x arr IH]; intros i v H; cbn [length] in H; [lia|]. destruct i as [|i]; cbn [store].
  - eexists. split; [reflexivity|]. split; [reflexivity|]. split; [reflexivity|]. intros; lia.
  - destruct (IH i v ltac:(lia)) as (arr' & -> & H1 & H2 & H3). eexists. split; [reflexivity|]. cbn [length nth_error].
    split; [lia|]. split; [exact H2|]. intros [|j] Hj; [reflexivity|]. cbn. apply H3. lia.
Qed.
Lemma t_lines_eq label arr arr' n : forall i, (forall j, (i <= j < i + n)%nat -> nth_error arr' j = nth_error arr j) ->
  t_lines label arr' i n = t_lines label arr i n.
Proof.
  induction n as [|n IH]; intros i H; [reflexivity|]. cbn [t_lines]. rewrite H by lia.
  destruct (nth_error arr i); [|reflexivity]. rewrite IH; [reflexivity|]. intros. apply H. lia.
Qed.
Lemma t_lines_snoc label arr v n : forall i t, t_lines label arr i n = Some t -> nth_error arr (i + n) = Some v ->
  t_lines label arr i (S n) = Some (t ++ (if v then l_space label else l_line label)).
Proof.
  induction n as [|n IH]; intros i t H Hv.
  - injection H as <-. rewrite Nat.add_0_r in Hv. cbn [t_lines]. rewrite Hv. cbn [option_map]. now rewrite app_nil_r.
  - remember (S n) as k. cbn [t_lines]. subst k. cbn [t_lines] in H. destruct (nth_error arr i) as [b|]; [|discriminate].
    destruct (t_lines label arr (S i) n) as [t'|] eqn:E; [|discriminate]. cbn [option_map] in H. injection H as <-.
    rewrite (IH (S i) t' E) by (replace (S i + n)%nat with (i + S n)%nat by lia; exact Hv). cbn [option_map]. now rewrite app_assoc.
Qed.

(** ** Rows *)
Section Names.
Variables (token_name : tkind -> list N) (production_name : nat -> list N).
Variables (e : lexeme_encoding) (inp : list N) (o : options).
Hypothesis Hc : is_set o visualize_use_color = false.
Notation drawn := (drawn token_name production_name e inp o).
Notation t_steps := (t_steps token_name production_name e inp o).
Notation t_step := (t_step token_name production_name e inp o).
Definition M : nat := N.to_nat (vo_max_tree_depth o).
Hypothesis HM : (M <= max_tree_depth_limit)%nat.

Definition below (n : nat) : list ptree -> list (list N) :=
  fix below l :=
    match l with
    | [] => []
    | k :: l' => hung o (match l' with [] => true | _ => false end) (drawn n k) ++ below l'
    end.
Lemma drawn_prod n id tok kids : drawn (S n) (TProd id tok kids) = (production_name id ++ str ":") :: below n kids.
Proof. reflexivity. Qed.

Lemma label_trunk last : (if last : bool then l_space (label_of o) else l_line (label_of o)) = trunk o last.
Proof. unfold label_of, trunk, unicode. destruct (is_set o visualize_use_unicode), last; reflexivity. Qed.
Lemma label_connector last : (if last : bool then l_end (label_of o) else l_branch (label_of o)) = connector o last.
Proof. unfold label_of, connector, unicode. destruct (is_set o visualize_use_unicode), last; reflexivity. Qed.
Lemma dots_eq : t_ellipsis o = dots o.
Proof. reflexivity. Qed.

(** The lines in front of a node at a depth. *)
Definition front (arr : list bool) (d : nat) (p : list N) : Prop :=
  (d = 0%nat /\ p = []) \/ ((0 < d)%nat /\ t_lines (label_of o) arr 1 (d - 1) = Some p).
Definition placed (d : nat) (p : list N) (last : bool) (rows : list (list N)) : list (list N) :=
  if (d =? 0)%nat then rows else map (app p) (hung o last rows).
Definition own (d : nat) (p : list N) (last : bool) : list N := if (d =? 0)%nat then [] else p ++ connector o last.
Lemma front_prefix arr d p last : front arr d p -> t_prefix o arr d last = Some (own d p last).
Proof.
  unfold front, t_prefix, own. intros [(-> & ->)|(Hd & ->)]; [reflexivity|].
  replace (d =? 0)%nat with false by (symmetry; apply Nat.eqb_neq; lia). cbn [option_map]. rewrite !(no_color o Hc).
  rewrite app_nil_l, app_nil_r, label_connector. reflexivity.
Qed.
Lemma front_keep arr arr' d p : (forall j, (j < d)%nat -> nth_error arr' j = nth_error arr j) -> front arr d p -> front arr' d p.
Proof.
  intros H [(-> & ->)|(Hd & Hp)]; [now left|right]. split; [exact Hd|]. rewrite <- Hp. apply t_lines_eq. intros. apply H. lia.
Qed.
Definition deeper (d : nat) (p : list N) (last : bool) : list N := if (d =? 0)%nat then [] else p ++ trunk o last.
Lemma front_deeper arr d p last : front arr d p -> nth_error arr d = Some last -> front arr (S d) (deeper d p last).
Proof.
  unfold front, deeper. intros [(-> & ->)|(Hd & Hp)] Hn; right; (split; [lia|]); [reflexivity|].
  replace (d =? 0)%nat with false by (symmetry; apply Nat.eqb_neq; lia).
  replace (S d - 1)%nat with (S (d - 1)) by lia. rewrite <- label_trunk. apply t_lines_snoc; [exact Hp|].
  replace (1 + (d - 1))%nat with d by lia. exact Hn.
Qed.
Lemma placed_cons d p last row rows : placed d p last (row :: rows) =
  (own d p last ++ row) :: map (app (deeper d p last)) rows.
Proof.
  unfold placed, own, deeper. destruct (d =? 0)%nat.
  - f_equal. now rewrite map_id.
  - cbn [hung map]. rewrite app_assoc. f_equal. rewrite map_map. apply map_ext. intros x. now rewrite app_assoc.
Qed.
Lemma placed_deeper d p last rows' q : map (app (deeper d p last)) (hung o q rows') = placed (S d) (deeper d p last) q rows'.
Proof. reflexivity. Qed.

Lemma steps_app m l l' : forall arr d, t_steps m arr d (l ++ l') =
  match t_steps m arr d l with
  | Some (t, arr, d) => match t_steps m arr d l' with Some (t', arr, d) => Some (t ++ t', arr, d) | None => None end
  | None => None
  end.
Proof.
  induction l as [|x l IH]; intros arr d.
  - cbn [app]. cbn [TvProofs.t_steps]. destruct (t_steps m arr d l') as [[[? ?] ?]|]; reflexivity.
  - cbn [app]. cbn [TvProofs.t_steps]. destruct (t_step m arr d x) as [[[t a] dd]|]; [|reflexivity].
    rewrite IH. destruct (t_steps m a dd l) as [[[? a1] d1]|]; [|reflexivity].
    destruct (t_steps m a1 d1 l') as [[[? ?] ?]|]; [|reflexivity]. now rewrite app_assoc.
Qed.

Section Mem.
Variables (m : memory).
(** What the events of a subtree at depth [d] write. *)
Definition wrote (s : ltree) : Prop := forall arr d p last, length arr = max_tree_depth_limit ->
  PtModel.is_last_child m (la s) = Some last -> rep m s -> (d <= M -> front arr d p)%nat ->
  exists arr', t_steps m arr d (tevents s) =
    Some (lines (if (d <=? M)%nat then placed d p last (drawn (M - d) (erase s)) else []), arr', d) /\
    length arr' = length arr /\ forall j, (j < d)%nat -> nth_error arr' j = nth_error arr j.
Definition wrote_kids (l : list ltree) : Prop := forall arr d p a, length arr = max_tree_depth_limit ->
  chain m l -> closed m l a -> Forall (rep m) l -> (d < M -> front arr (S d) p)%nat ->
  exists arr', t_steps m arr (S d) (flat_map tevents l) =
    Some (lines (if (d <? M)%nat then map (app p) (below (M - S d) (map erase l)) else []), arr', S d) /\
    length arr' = length arr /\ forall j, (j < S d)%nat -> nth_error arr' j = nth_error arr j.

Lemma kids_from l : (forall s, In s l -> wrote s) -> wrote_kids l.
Proof.
  induction l as [|s l IH]; intros Hs arr d p a Hl Hch Hcl Hr Hf.
  - exists arr. cbn [flat_map TvProofs.t_steps map below]. split; [destruct (d <? M)%nat; reflexivity|]. auto.
  - inversion Hr as [|? ? Hr1 Hr2]; subst.
    set (q := match l with [] => true | _ => false end).
    assert (Hq : PtModel.is_last_child m (la s) = Some q).
    { unfold PtModel.is_last_child, next_role. destruct l as [|s' l].
      - destruct (Hcl (la s) eq_refl) as (ty & ->). reflexivity.
      - destruct Hch as ((ty & ->) & _). reflexivity. }
    destruct (Hs s (or_introl eq_refl) arr (S d) p q Hl Hq Hr1) as (arr1 & E1 & L1 & K1); [intros; apply Hf; lia|].
    assert (Hch' : chain m l) by (destruct l; [exact I|apply Hch]).
    assert (Hcl' : closed m l a).
    { intros z Hz. apply Hcl. destruct l; [discriminate|exact Hz]. }
    destruct (IH (fun s' Hs' => Hs s' (or_intror Hs')) arr1 d p a) as (arr2 & E2 & L2 & K2); auto; [congruence| |].
    { intros Hd. eapply front_keep; [|now apply Hf]. intros j Hj. apply K1. lia. }
    exists arr2. cbn [flat_map]. rewrite steps_app, E1, E2. split; [|split; [congruence|]].
    + f_equal. f_equal. f_equal. change (S d <=? M)%nat with (d <? M)%nat. destruct (d <? M)%nat; [|reflexivity].
      rewrite <- lines_app. f_equal. cbn [map below]. rewrite map_app. f_equal.
      unfold placed. cbn [Nat.eqb]. f_equal. f_equal. unfold q. destruct l; reflexivity.
    + intros j Hj. rewrite K2, K1 by lia. reflexivity.
Qed.

Lemma lines_cons r rows : lines (r :: rows) = r ++ [0x0A] ++ lines rows.
Proof. unfold lines. cbn [map concat]. now rewrite <- app_assoc. Qed.

Lemma wrote_all s : wrote s.
Proof.
  induction s as [a k b e'|a id tok kids IH] using ltree_rec.
  - intros arr d p last Hl Hlast Hr Hf. cbn [la] in Hlast. exists arr. cbn [tevents TvProofs.t_steps]. split; [|auto].
    unfold TvProofs.t_step. rewrite Hlast. fold M. destruct (Nat.leb_spec d M) as [Hd|Hd]; [|reflexivity].
    rewrite (front_prefix _ _ _ last (Hf Hd)).
    destruct Hr as (Hr1 & Hr2 & Hr3 & Hr4).
    unfold kind_name, lexeme_units, lexeme, token_kind, token_begin, token_end. rewrite Hr1, Hr2, Hr3.
    rewrite app_nil_r. f_equal. f_equal. f_equal. cbn [erase TvSpec.drawn]. rewrite placed_cons. cbn [map].
    rewrite lines_cons. cbn [lines map concat]. rewrite app_nil_r, <- app_assoc. f_equal.
    unfold t_name, token_row. rewrite !(no_color o Hc). cbn [app]. rewrite app_nil_r, <- app_assoc. f_equal. f_equal.
    replace (b + (e' - b) - b)%nat with (e' - b)%nat by lia. unfold t_units_of.
    set (us := firstn (e' - b) (skipn b inp)).
    destruct us as [|c us]; [reflexivity|]. rewrite lexeme_output_eq.
    rewrite (D_displayed _ _ (D_lexeme e (c :: us) (set_flag o visualize_space))).
    rewrite reset_set, (reset_plain o Hc). reflexivity.
  - intros arr d p last Hl Hlast Hr Hf. cbn [la] in Hlast. apply rep_prod in Hr.
    destruct Hr as (Hr1 & Hr2 & _ & _ & Hch & Hcl & Hkids).
    cbn [tevents TvProofs.t_steps]. unfold TvProofs.t_step at 1. rewrite Hlast. fold M.
    unfold kind_name, production_id. rewrite Hr1, Hr2.
    assert (HX : forall arr1, t_steps m arr1 (S d) [(Exit, a)] = Some ([], arr1, d)).
    { intros arr1. cbn [TvProofs.t_steps]. unfold TvProofs.t_step. rewrite Hlast. reflexivity. }
    pose proof (kids_from kids IH) as HK.
    destruct (Nat.leb_spec d M) as [Hd|Hd].
    + specialize (Hf Hd). rewrite (front_prefix _ _ _ last Hf).
      destruct (Nat.eqb_spec d M) as [->|Hn].
      * destruct (HK arr M [] a Hl Hch Hcl Hkids ltac:(lia)) as (arr2 & E2 & L2 & K2).
        rewrite steps_app, E2, HX. exists arr2. split; [|split; [exact L2|intros; apply K2; lia]].
        rewrite Nat.ltb_irrefl, app_nil_r. f_equal. f_equal. f_equal.
        replace (M - M)%nat with O by lia. cbn [erase TvSpec.drawn]. rewrite placed_cons. cbn [map]. rewrite lines_cons.
        cbn [lines map concat]. rewrite app_nil_r, <- !app_assoc. f_equal. unfold t_name. rewrite !(no_color o Hc).
        rewrite dots_eq. rewrite <- !app_assoc. reflexivity.
      * destruct (store_ok arr d last) as (arr1 & -> & L1 & N1 & K1); [lia|].
        destruct (HK arr1 d (deeper d p last) a ltac:(congruence) Hch Hcl Hkids) as (arr2 & E2 & L2 & K2).
        { intros _. apply front_deeper; [|exact N1]. eapply front_keep; [exact K1|exact Hf]. }
        rewrite steps_app, E2, HX. exists arr2. split; [|split; [congruence|]].
        -- replace (d <? M)%nat with true by (symmetry; apply Nat.ltb_lt; lia). f_equal. f_equal. f_equal.
           cbn [erase]. replace (M - d)%nat with (S (M - S d)) by lia. rewrite drawn_prod, placed_cons, lines_cons.
           rewrite app_nil_r. rewrite <- !app_assoc. f_equal. unfold t_name. rewrite !(no_color o Hc).
           rewrite <- !app_assoc. reflexivity.
        -- intros j Hj. rewrite K2, K1 by lia. reflexivity.
    + destruct (HK arr d [] a Hl Hch Hcl Hkids ltac:(lia)) as (arr2 & E2 & L2 & K2).
      rewrite steps_app, E2, HX. exists arr2. split; [|split; [exact L2|intros; apply K2; lia]].
      replace (d <? M)%nat with false by (symmetry; apply Nat.ltb_ge; lia). reflexivity.
Qed.
End Mem.

Lemma whole_drawn m lt eof b e' : Whole m lt eof b e' ->
  exists arr, t_steps m (repeat false max_tree_depth_limit) 0 (tevents lt) = Some (lines (drawn M (erase lt)), arr, 0%nat).
Proof.
  intros HW. destruct (wrote_all m lt (repeat false max_tree_depth_limit) 0%nat [] false) as (arr & E & _).
  - apply repeat_length.
  - unfold PtModel.is_last_child, next_role. rewrite (W_root _ _ _ _ _ HW). reflexivity.
  - apply (W_rep _ _ _ _ _ HW).
  - intros _. now left.
  - exists arr. rewrite E. cbn [Nat.leb placed Nat.eqb]. now rewrite Nat.sub_0_r.
Qed.
End Names.

(** ** Trees *)
Lemma tree_output_eq tn pn e inp opts fuel t : tree_text_output tn pn e inp opts fuel t = t_tree tn pn e inp opts fuel t.
Proof.
  unfold tree_text_output, tree_output. rewrite (tree_text tn pn e inp append_put opts fuel _ t (shared_unit opts)).
  destruct (t_tree _ _ _ _ _ _ _); [|reflexivity]. cbn [option_map]. now rewrite append_str.
Qed.
Lemma tree_written {W I} (put : W -> I -> N -> W * I) tn pn e inp opts fuel o t : plain_or_shared (I := I) opts ->
  visualize_tree put tn pn e inp opts fuel o t = option_map (written put o) (tree_text_output tn pn e inp opts fuel t).
Proof.
  intros H. rewrite (tree_text tn pn e inp put opts fuel o t H), tree_output_eq.
  destruct (t_tree _ _ _ _ _ _ _); [|reflexivity]. cbn [option_map]. now rewrite written_str.
Qed.
Lemma drawn_reset tn pn e inp o t : forall n, drawn tn pn e inp (VisModel.reset o visualize_use_color) n t = drawn tn pn e inp o n t.
Proof.
  set (o' := VisModel.reset o visualize_use_color).
  assert (Hu : is_set o' visualize_use_unicode = is_set o visualize_use_unicode) by apply reset_unicode.
  assert (Hh : forall q rows, hung o' q rows = hung o q rows).
  { intros q rows. unfold hung, connector, trunk, unicode. now rewrite Hu. }
  revert t. fix IH 1. intros [k b e'|id tok kids] n.
  - cbn [drawn]. f_equal. unfold token_row. f_equal. destruct (firstn (e' - b) (skipn b inp)) as [|c us]; [reflexivity|].
    rewrite !lexeme_output_eq. rewrite (D_displayed _ _ (D_lexeme e (c :: us) (set_flag o visualize_space))).
    rewrite (D_displayed _ _ (D_lexeme e (c :: us) (set_flag o' visualize_space))).
    rewrite !reset_set. unfold o'. rewrite reset_reset. reflexivity.
  - cbn [drawn]. destruct n as [|n]; [unfold dots; now rewrite Hu|]. f_equal.
    induction kids as [|x kids IHk]; [reflexivity|]. rewrite IHk, Hh, IH. reflexivity.
Qed.
Lemma tree_drawn cap tr t b e' tn pn e inp o : (4 <= cap)%nat -> made cap tr t b e' ->
  (forall k, clean (tn k)) -> (forall p, clean (pn p)) -> vo_max_tree_depth o <= 32 ->
  exists txt, tree_text_output tn pn e inp o (2 * nodes t) tr = Some txt /\
    displayed false txt = lines (drawn tn pn e inp o (N.to_nat (vo_max_tree_depth o)) t).
Proof.
  intros Hcap Hm Ht Hp Ho. destruct (made_whole cap tr t b e' Hcap Hm) as (lt & eof & E1 & E2 & HW & _).
  rewrite tree_output_eq. pose proof (D_tree tn pn e inp Ht Hp o (2 * nodes t) tr) as HD.
  assert (Hpl : t_tree tn pn e inp (VisModel.reset o visualize_use_color) (2 * nodes t) tr =
    Some (lines (drawn tn pn e inp o (N.to_nat (vo_max_tree_depth o)) t))).
  { unfold t_tree. cbn [VisModel.reset vo_max_tree_depth]. fold (VisModel.reset o visualize_use_color).
    replace (max_tree_depth_limit <? N.to_nat (vo_max_tree_depth o))%nat with false by (symmetry; apply Nat.ltb_ge; unfold max_tree_depth_limit; lia).
    rewrite E1, (traverse_ok _ _ _ _ _ HW lt (2 * nodes t)); [|constructor|rewrite <- E2; apply tevents_nodes].
    assert (HM : (M (VisModel.reset o visualize_use_color) <= max_tree_depth_limit)%nat).
    { unfold M. cbn [VisModel.reset vo_max_tree_depth]. unfold max_tree_depth_limit. lia. }
    destruct (whole_drawn tn pn e inp _ (reset_color o) HM _ _ _ _ _ HW) as (arr & EA).
    rewrite EA. cbn [option_map fst]. rewrite drawn_reset, E2. reflexivity. }
  rewrite Hpl in HD. destruct (t_tree tn pn e inp o (2 * nodes t) tr) as [txt|]; [|contradiction].
  exists txt. split; [reflexivity|]. exact (D_displayed _ _ HD).
Qed.
