(** Drawings can be read. *)
From Coq Require Import String Ascii.
From Verif Require Import Prelude CodecModel CodecSpec LitModel ClassSpec LocSpec RuleModel
  PtModel PtSpec PtActSpec VisModel VisSpec VisProofs VisText VisShow VisInj VisMain RepModel RepSpec RepProofs RepText RepMain TvModel TvSpec TvProofs TvMain.
Close Scope string_scope.
Open Scope N_scope.

Section Layout.
Variable o : options.

Fixpoint layout (t : outline) : list (list N) :=
  match t with
  | Node row kids =>
    row ::
    (fix below l :=
       match l with
       | [] => []
       | k :: l' => hung o (match l' with [] => true | _ => false end) (layout k) ++ below l'
       end) kids
  end.
Definition laid (l : list outline) : list (list N) :=
  (fix below l :=
     match l with
     | [] => []
     | k :: l' => hung o (match l' with [] => true | _ => false end) (layout k) ++ below l'
     end) l.
Lemma laid_cons k l : laid (k :: l) = hung o (match l with [] => true | _ => false end) (layout k) ++ laid l.
Proof. reflexivity. Qed.

Lemma trunk_connector q q' a b : trunk o q ++ a <> connector o q' ++ b.
Proof. unfold trunk, connector. destruct (unicode o), q, q'; vm_compute; discriminate. Qed.
Lemma connector_same q q' a b : connector o q ++ a = connector o q' ++ b -> trunk o q = trunk o q' /\ a = b.
Proof. unfold trunk, connector. destruct (unicode o), q, q'; intros H; vm_compute in H; try discriminate; injection H as ->; auto. Qed.

Lemma laid_head l : l <> [] -> exists q x r, laid l = (connector o q ++ x) :: r.
Proof.
  destruct l as [|k l]; [congruence|]. intros _. rewrite laid_cons. destruct k as [row kids]. cbn [layout hung app]. eauto.
Qed.
Lemma split_rows t rows : forall rows' l l', map (app t) rows ++ laid l = map (app t) rows' ++ laid l' ->
  (exists q, t = trunk o q) -> rows = rows' /\ laid l = laid l'.
Proof.
  induction rows as [|r rows IH]; intros rows' l l' H (q & ->).
  - destruct rows' as [|r' rows']; [auto|]. cbn [map app] in H.
    destruct l as [|k l]; [discriminate|]. destruct (laid_head (k :: l)) as (q' & x & s & E); [discriminate|].
    rewrite E in H. injection H as H _. symmetry in H. now apply trunk_connector in H.
  - destruct rows' as [|r' rows']; cbn [map app] in H.
    + destruct l' as [|k l']; [discriminate|]. destruct (laid_head (k :: l')) as (q' & x & s & E); [discriminate|].
      rewrite E in H. injection H as H _. now apply trunk_connector in H.
    + injection H as H1 H2. apply app_inv_head in H1. destruct (IH rows' l l' H2 (ex_intro _ q eq_refl)) as (-> & ->).
      subst r'. auto.
Qed.

Fixpoint size (t : outline) : nat := match t with Node _ kids => S (list_sum (map size kids)) end.
Lemma layout_inj n : forall t t', (size t < n)%nat -> layout t = layout t' -> t = t'.
Proof.
  induction n as [|n IH]; intros t t' Hn H; [lia|]. destruct t as [row kids], t' as [row' kids'].
  cbn [layout] in H. fold (laid kids) in H. fold (laid kids') in H. injection H as -> H. f_equal.
  cbn [size] in Hn. assert (Hk : (list_sum (map size kids) < n)%nat) by lia. clear Hn.
  revert kids' H. induction kids as [|k kids IHk]; intros [|k' kids'] H; auto.
  - rewrite laid_cons in H. destruct k'. discriminate.
  - rewrite laid_cons in H. destruct k. discriminate.
  - cbn [map] in Hk. change (list_sum (size k :: map size kids)) with (size k + list_sum (map size kids))%nat in Hk.
    rewrite !laid_cons in H. destruct (layout k) as [|r rows] eqn:Ek; [destruct k; discriminate|].
    destruct (layout k') as [|r' rows'] eqn:Ek'; [destruct k'; discriminate|].
    cbn [hung app] in H. injection H as H1 H2. apply connector_same in H1. destruct H1 as (Et & ->). rewrite <- Et in H2.
    apply split_rows in H2; [|eauto]. destruct H2 as (-> & H2). f_equal.
    + apply IH; [lia|]. congruence.
    + apply IHk; [lia|exact H2].
Qed.
End Layout.

Section Names.
Variables (token_name : tkind -> list N) (production_name : nat -> list N).
Variables (e : lexeme_encoding) (inp : list N) (o : options).
Notation drawn := (drawn token_name production_name e inp o).
Notation outlined := (outlined token_name production_name e inp o).

Lemma drawn_layout t : forall n, drawn n t = layout o (outlined n t).
Proof.
  revert t. fix IH 1. intros [k b e'|id tok kids] n; [reflexivity|]. cbn [TvSpec.drawn TvSpec.outlined].
  destruct n as [|n]; [reflexivity|]. cbn [layout]. f_equal.
  induction kids as [|x kids IHk]; [reflexivity|]. cbn [map]. rewrite IHk, IH. destruct kids; reflexivity.
Qed.
Lemma drawn_length t : forall n, length (drawn n t) = shallow n t.
Proof.
  revert t. fix IH 1. intros [k b e'|id tok kids] n; [reflexivity|]. cbn [TvSpec.drawn shallow].
  destruct n as [|n]; [reflexivity|]. cbn [length]. f_equal.
  assert (Hh : forall q rows, length (hung o q rows) = length rows).
  { intros q [|r rows]; [reflexivity|]. cbn [hung length]. now rewrite map_length. }
  induction kids as [|x kids IHk]; [reflexivity|]. cbn [map].
  change (list_sum (shallow n x :: map (shallow n) kids)) with (shallow n x + list_sum (map (shallow n) kids))%nat.
  rewrite app_length, Hh, IH. f_equal. exact IHk.
Qed.

Definition one_line (s : list N) : Prop := ~ In LF s.
Hypothesis Ht : forall k, one_line (token_name k).
Hypothesis Hp : forall p, one_line (production_name p).
Lemma one_line_app a b : one_line a -> one_line b -> one_line (a ++ b).
Proof. unfold one_line. intros H1 H2 H. apply in_app_or in H. tauto. Qed.
Lemma one_line_str s : forallb (fun c => negb (c =? LF)) s = true -> one_line s.
Proof. intros H Hin. rewrite forallb_forall in H. specialize (H _ Hin). rewrite N.eqb_refl in H. discriminate. Qed.
Lemma one_line_row k b e' : one_line (token_row token_name e inp o k b e').
Proof.
  unfold token_row. apply one_line_app; [apply Ht|]. destruct (firstn (e' - b) (skipn b inp)) as [|c us]; [intros []|].
  apply one_line_app; [apply one_line_str; vm_compute; reflexivity|]. rewrite lexeme_output_eq, displayed_lexeme.
  intros Hi. pose proof (NL_lexeme e (c :: us) _ (VisShow.reset_color (set_flag o visualize_space))) as Hn. unfold NL in Hn. rewrite Forall_forall in Hn.
  exact (Hn _ Hi eq_refl).
Qed.
Lemma one_line_hung q rows : Forall one_line rows -> Forall one_line (hung o q rows).
Proof.
  assert (Hc : one_line (connector o q)) by (apply one_line_str; unfold connector; destruct (unicode o), q; vm_compute; reflexivity).
  assert (Hk : one_line (trunk o q)) by (apply one_line_str; unfold trunk; destruct (unicode o), q; vm_compute; reflexivity).
  intros H. destruct H as [|r rows Hr Hrs]; [constructor|]. cbn [hung]. constructor; [now apply one_line_app|].
  apply Forall_map. eapply Forall_impl; [|exact Hrs]. intros a Ha. now apply one_line_app.
Qed.
Lemma one_line_drawn t : forall n, Forall one_line (drawn n t).
Proof.
  revert t. fix IH 1. intros [k b e'|id tok kids] n.
  - cbn [TvSpec.drawn]. constructor; [apply one_line_row|constructor].
  - cbn [TvSpec.drawn]. destruct n as [|n].
    + constructor; [|constructor]. apply one_line_app; [apply Hp|]. apply one_line_app; [apply one_line_str; vm_compute; reflexivity|].
      apply one_line_str. unfold dots. destruct (is_set o visualize_use_unicode); vm_compute; reflexivity.
    + constructor; [apply one_line_app; [apply Hp|apply one_line_str; vm_compute; reflexivity]|].
      induction kids as [|x kids IHk]; [constructor|]. apply Forall_app. split; [apply one_line_hung, IH|exact IHk].
Qed.
End Names.

Lemma lines_inj a : forall b, Forall one_line a -> Forall one_line b -> lines a = lines b -> a = b.
Proof.
  assert (Hs : forall x y r s, one_line x -> one_line y -> x ++ LF :: r = y ++ LF :: s -> x = y /\ r = s).
  { induction x as [|c x IH]; intros [|d y] r s Hx Hy H; cbn [app] in H.
    - injection H as ->. auto.
    - injection H as <- _. now destruct (Hy (or_introl eq_refl)).
    - injection H as -> _. now destruct (Hx (or_introl eq_refl)).
    - injection H as -> H. apply IH in H; [|intros Hi; now apply Hx; right|intros Hi; now apply Hy; right].
      destruct H as (-> & ->). auto. }
  induction a as [|x a IH]; intros [|y b] Ha Hb H; auto.
  - destruct y; discriminate.
  - destruct x; discriminate.
  - inversion Ha; inversion Hb; subst. unfold lines in H; cbn [map concat] in H; fold (lines a) (lines b) in H.
    rewrite <- !app_assoc in H. cbn [app] in H. apply Hs in H; auto. destruct H as (-> & H). f_equal. now apply IH.
Qed.

Lemma drawn_read tn pn e inp inp' o n t t' : (forall k, ~ In LF (tn k)) -> (forall p, ~ In LF (pn p)) ->
  lines (drawn tn pn e inp o n t) = lines (drawn tn pn e inp' o n t') ->
  outlined tn pn e inp o n t = outlined tn pn e inp' o n t'.
Proof.
  intros Ht Hp H. apply lines_inj in H; [|now apply one_line_drawn..]. rewrite !drawn_layout in H.
  eapply layout_inj; [|exact H]. apply Nat.lt_succ_diag_r.
Qed.

Lemma drawings_read cap tr t b e' tr' inp inp' t' b' e'' tn pn e o text text' :
  (4 <= cap)%nat -> made cap tr t b e' -> made cap tr' t' b' e'' ->
  (forall k, clean (tn k)) -> (forall p, clean (pn p)) ->
  (forall k, ~ In LF (tn k)) -> (forall p, ~ In LF (pn p)) -> vo_max_tree_depth o <= 32 ->
  tree_text_output tn pn e inp o (2 * nodes t) tr = Some text ->
  tree_text_output tn pn e inp' o (2 * nodes t') tr' = Some text' ->
  displayed false text = displayed false text' ->
  outlined tn pn e inp o (N.to_nat (vo_max_tree_depth o)) t = outlined tn pn e inp' o (N.to_nat (vo_max_tree_depth o)) t'.
Proof.
  intros Hc Hm Hm' Ht Hp Ht' Hp' Hd E E' H.
  destruct (tree_drawn cap tr t b e' tn pn e inp o Hc Hm Ht Hp Hd) as (x & Ex & Dx).
  destruct (tree_drawn cap tr' t' b' e'' tn pn e inp' o Hc Hm' Ht Hp Hd) as (x' & Ex' & Dx').
  assert (x = text) by congruence. assert (x' = text') by congruence. subst x x'.
  apply drawn_read; [assumption..|]. congruence.
Qed.
Lemma tree_empty tn pn e inp o fuel tr : p_root tr = None -> vo_max_tree_depth o <= 32 ->
  tree_text_output tn pn e inp o fuel tr = Some [].
Proof.
  intros H Hd. unfold tree_text_output, tree_output, visualize_tree. rewrite H.
  replace (max_tree_depth_limit <? N.to_nat (vo_max_tree_depth o))%nat with false; [reflexivity|].
  symmetry. apply Nat.ltb_ge. unfold max_tree_depth_limit. lia.
Qed.
