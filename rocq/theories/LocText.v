(** Locations in text and in bytes. *)
From Verif Require Import Prelude CodecModel CodecSpec CodecProofs SwarSpec LitModel LitSpec
  ClassModel ClassSpec ClassProofs TextModel TextSpec TextProofs LocModel LocSpec LocProofs.
Open Scope N_scope.

Definition policy (u : column_unit) : counting := match u with PerUnit => CUnits | PerPoint => CPoints end.

Lemma as_unsigned_inc n : unsigned_inc (as_unsigned n) = as_unsigned (S n).
Proof.
  unfold unsigned_inc, as_unsigned. rewrite N.add_mod_idemp_l by discriminate. f_equal. lia.
Qed.

Lemma nth_lt (l : list N) i x : nth_error l i = Some x -> (i < length l)%nat.
Proof. intros H. apply nth_error_Some. congruence. Qed.

(** ** Line feeds *)

Lemma newlines_app a b : newlines (a ++ b) = (newlines a + newlines b)%nat.
Proof. unfold newlines. now rewrite filter_app, app_length. Qed.

Lemma nth_skipn (l : list N) i j : nth_error (skipn i l) j = nth_error l (i + j).
Proof. revert l. induction i as [|i IH]; intros [|x l]; cbn; try reflexivity; [now destruct j|apply IH]. Qed.

Lemma firstn_plus (l : list N) a b : firstn (a + b) l = firstn a l ++ firstn b (skipn a l).
Proof. revert l. induction a as [|a IH]; intros l; [reflexivity|]. destruct l; cbn; [now rewrite firstn_nil|]. f_equal. apply IH. Qed.

Lemma newlines_none l : (forall i, nth_error l i <> Some LF) -> newlines l = 0%nat.
Proof.
  intros H. unfold newlines. induction l as [|x l IH]; [reflexivity|]. cbn.
  destruct (N.eqb_spec x LF) as [->|Hx]; [destruct (H 0%nat eq_refl)|]. apply IH. intros i. exact (H (S i)).
Qed.

Lemma newline_lf l n : newline_at l n ->
  newlines (firstn n l) = 1%nat /\ nth_error l (n - 1) = Some LF /\ (1 <= n)%nat /\
  forall i, (i < n - 1)%nat -> nth_error l i <> Some LF.
Proof.
  intros [(-> & r & ->)|(-> & r & ->)]; (split; [reflexivity|]; split; [reflexivity|]; split; [lia|]).
  - lia.
  - intros [|i] Hi; [discriminate|lia].
Qed.

(** A character of several units contains no ASCII. *)
Lemma reads_multi E l c n : Forall (fun u => u < lbound E) l -> reads E l c n -> (2 <= n)%nat ->
  forall i x, (i < n)%nat -> nth_error l i = Some x -> 128 <= x.
Proof.
  intros Hu H Hn i x Hi Hx. destruct E as [|e]; [destruct H as (-> & _); lia|]. cbn [reads] in H.
  assert (Hx' : nth_error (firstn n l) i = Some x).
  { clear -Hi Hx. revert l i Hi Hx. induction n as [|n IH]; intros [|y l] [|i] Hi Hx; cbn in *; try lia; try discriminate; auto. apply (IH l i); [lia|exact Hx]. }
  destruct e.
  - apply ascii_success in H. destruct H as (-> & _). lia.
  - apply utf8_sound in H as (Hl & _ & Hv & _); [|exact Hu].
    assert (Hfl : length (firstn n l) = n) by (apply firstn_length_le; exact Hl).
    destruct (firstn n l) as [|a [|b [|d [|f [|g r]]]]]; cbn [length] in Hfl; cbn [utf8_value] in Hv; try discriminate; try lia;
    unfold between, cont_byte, between in Hv;
    destruct (_ && _) eqn:Hb in Hv; try discriminate;
    destruct i as [|[|[|[|i]]]]; cbn in Hx'; try discriminate; try (injection Hx' as <-); try lia.
    all: destruct i; discriminate.
  - apply utf16_sound in H as (Hl & cp & (_ & Hw) & _); [|exact Hu].
    assert (Hfl : length (firstn n l) = n) by (apply firstn_length_le; exact Hl).
    destruct (firstn n l) as [|a [|b [|d r]]]; cbn [length] in Hfl; try lia; try destruct Hw as (H1 & H2 & _); try contradiction.
    unfold between in *. destruct i as [|[|i]]; cbn in Hx'; try (injection Hx' as <-); try lia.
  - apply utf32_success in H. destruct H as (-> & _). lia.
Qed.

Section Text.
Variables (u : column_unit) (E : lenc) (inp : list N).
Hypothesis Hinp : text_units E inp.

Lemma column_found p n i : (p < length inp)%nat ->
  match_column E (policy u) 0 (skipn p inp) = (n, i) -> column u E (skipn p inp) n.
Proof.
  intros Hp. assert (Hne : skipn p inp <> []).
  { intros H. apply (f_equal (@length N)) in H. rewrite skipn_length in H. cbn in H. lia. }
  destruct u; cbn [policy match_column column]; intros H.
  - injection H as <- _. auto.
  - pose proof (rest_ok E inp Hinp p) as Hr.
    destruct (match_code_point E (skipn p inp)) as [m|] eqn:Hm; injection H as <- _.
    + left. now apply (point_match E _ m (proj1 Hr)).
    + right. split; [reflexivity|]. split; [exact Hne|]. intros x m Hx.
      assert (Hs : match_code_point E (skipn p inp) = Some m) by (apply (point_match E _ m (proj1 Hr)); eauto). congruence.
Qed.

Lemma column_no_lf p n : (p < length inp)%nat -> column u E (skipn p inp) n ->
  (forall m, ~ newline_at (skipn p inp) m) -> forall i, (i < n)%nat -> nth_error (skipn p inp) i <> Some LF.
Proof.
  intros Hp Hc Hn.
  assert (H0 : nth_error (skipn p inp) 0 <> Some LF).
  { intros H. apply (Hn 1%nat). left. split; [reflexivity|]. destruct (skipn p inp) as [|x r]; [discriminate|]. injection H as ->. eauto. }
  assert (H1 : n = 1%nat \/ exists c, reads E (skipn p inp) c n).
  { destruct u; [left; apply Hc|]. destruct Hc as [Hc|Hc]; [now right|left; apply Hc]. }
  destruct H1 as [->|(c & Hr)].
  - intros [|i] Hi; [exact H0|lia].
  - intros i Hi Hx. destruct (Nat.le_gt_cases 2 n) as [L|L].
    + pose proof (reads_multi E _ c n (proj1 (rest_ok E inp Hinp p)) Hr L i LF Hi Hx). unfold LF in *. lia.
    + pose proof (reads_pos E _ c n (proj1 (rest_ok E inp Hinp p)) Hr). assert (i = 0%nat) by lia. subst i. contradiction.
Qed.

Lemma columns_snoc rest n k m : columns u E rest n k -> column u E (skipn n rest) m ->
  columns u E rest (n + m) (S k).
Proof.
  induction 1 as [rest|rest m' n k Hc H IH]; intros Hm.
  - cbn in Hm. replace (0 + m)%nat with (m + 0)%nat by lia. constructor; [exact Hm|constructor].
  - rewrite <- Nat.add_assoc. constructor; [exact Hc|]. apply IH. rewrite skipn_skipn. exact Hm.
Qed.

Definition text_inv (s : lst) : Prop :=
  (s_cur s <= length inp)%nat /\ s_idx s = 0%nat /\
  line_begins inp (s_cur s) (s_lb s) /\
  s_nr s = as_unsigned (1 + newlines (firstn (s_cur s) inp)) /\
  exists k, columns u E (skipn (s_lb s) inp) (s_cur s - s_lb s) k /\ s_col s = as_unsigned (1 + k).

Lemma text_start : text_inv (start input_anchor).
Proof.
  unfold text_inv. cbn [start s_cur s_idx s_lb s_nr s_col input_anchor an_line_begin an_line_nr].
  split; [lia|]. split; [reflexivity|]. split; [|split; [reflexivity|]].
  - split; [lia|]. split; [now left|]. intros i Hi. lia.
  - exists 0%nat. split; [constructor|reflexivity].
Qed.

Lemma text_step s s' : text_inv s -> stepf E (policy u) inp s = Some s' -> text_inv s'.
Proof.
  intros (H1 & H2 & (Hb1 & Hb2 & Hb3) & H4 & k & H5 & H6) Hs.
  pose proof (stepf_cur E (policy u) inp Hinp s s' Hs) as Hc.
  apply stepf_inv in Hs as (L & [(n & i & Ht & Hn & ->)|(n & i & Ht & Hm & Hn & ->)]); [| |exact Hinp].
  - assert (Ht' : match_newline E (skipn (s_cur s) inp) = Some n /\ i = s_idx s).
    { destruct u; cbn [policy try_match_newline] in Ht; destruct (match_newline E (skipn (s_cur s) inp)); try discriminate; injection Ht as -> ->; auto. }
    destruct Ht' as (Ht' & ->). apply newline_match in Ht'; [|apply (rest_ok E inp Hinp)].
    apply newline_lf in Ht' as (Hl1 & Hl2 & Hl3 & _). rewrite nth_skipn in Hl2.
    unfold text_inv. cbn [s_cur s_idx s_lb s_nr s_col] in *. split; [lia|]. split; [exact H2|]. split; [|split].
    + split; [lia|]. split; [|intros j Hj; lia]. right. now replace (s_cur s + n - 1)%nat with (s_cur s + (n - 1))%nat by lia.
    + rewrite firstn_plus, newlines_app, Hl1, H4. rewrite as_unsigned_inc. f_equal. lia.
    + exists 0%nat. rewrite Nat.sub_diag. split; [constructor|reflexivity].
  - rewrite H2 in *.
    assert (Ht' : forall m, ~ newline_at (skipn (s_cur s) inp) m).
    { apply newline_match_none with (E := E); [apply (rest_ok E inp Hinp)|].
      destruct u; cbn [policy try_match_newline] in Ht; destruct (match_newline E (skipn (s_cur s) inp)); congruence. }
    pose proof (column_found (s_cur s) n i L Hm) as Hcol.
    pose proof (column_no_lf (s_cur s) n L Hcol Ht') as Hno.
    assert (i = 0%nat) as -> by (destruct u; cbn in Hm; congruence).
    unfold text_inv. cbn [s_cur s_idx s_lb s_nr s_col] in *. split; [lia|]. split; [reflexivity|]. split; [|split].
    + split; [lia|]. split; [exact Hb2|]. intros j Hj. destruct (Nat.lt_ge_cases j (s_cur s)) as [J|J]; [apply Hb3; lia|].
      specialize (Hno (j - s_cur s)%nat ltac:(lia)). rewrite nth_skipn in Hno. now replace (s_cur s + (j - s_cur s))%nat with j in Hno by lia.
    + rewrite firstn_plus, newlines_app. rewrite (newlines_none (firstn n (skipn (s_cur s) inp))); [now rewrite Nat.add_0_r|].
      intros j Hj. apply (Hno j).
      * apply nth_lt in Hj as Hj2. rewrite firstn_length in Hj2. lia.
      * revert Hj. generalize (skipn (s_cur s) inp). clear. intros l. revert j l. induction n as [|n IH]; intros [|j] [|x l]; cbn; try discriminate; auto.
    + exists (S k). split; [|rewrite H6; apply as_unsigned_inc].
      replace (s_cur s + n - s_lb s)%nat with ((s_cur s - s_lb s) + n)%nat by lia. apply columns_snoc; [exact H5|].
      rewrite skipn_skipn. now replace (s_lb s + (s_cur s - s_lb s))%nat with (s_cur s) by lia.
Qed.

Lemma text_steps t : steps E (policy u) inp (start input_anchor) t -> text_inv t.
Proof.
  intros H. assert (G : forall s, steps E (policy u) inp s t -> text_inv s -> text_inv t).
  { clear H. intros s H. induction H as [|s s' t Hs H IH]; [auto|]. intros Hi. apply IH. eapply text_step; eassumption. }
  exact (G _ H text_start).
Qed.

Lemma text_location pos : (pos <= length inp)%nat ->
  exists l, get_input_location E (policy u) inp pos input_anchor = Loc l /\
    lo_line_nr l = as_unsigned (1 + newlines (firstn pos inp)) /\
    line_begins inp pos (lo_line_begin l) /\
    (exists k, columns u E (skipn (lo_line_begin l) inp) (lo_column_begin l - lo_line_begin l) k /\
       lo_column_nr l = as_unsigned (1 + k)) /\
    (lo_line_begin l <= lo_column_begin l <= pos)%nat /\
    rounds_down u E inp pos (lo_column_begin l).
Proof.
  intros Hp. destruct (get_final E (policy u) inp Hinp pos input_anchor ltac:(cbn; lia)) as (t & (Hst & Hend) & Hg).
  exists (loc_of t). split; [exact Hg|]. clear Hg.
  destruct (text_steps t Hst) as (H1 & H2 & (Hb1 & Hb2 & Hb3) & H4 & k & H5 & H6).
  unfold loc_of. cbn [lo_line_nr lo_line_begin lo_column_begin lo_column_nr].
  destruct Hend as [<-|(Hlt & t' & Hs & Hlt')].
  - split; [exact H4|]. split; [split; auto|]. split; [eauto|]. split; [lia|]. now left.
  - apply stepf_inv in Hs as (L & Hs); [|exact Hinp].
    assert (Hno : exists n, (pos < s_cur t + n)%nat /\
      (forall i, (s_cur t <= i < pos)%nat -> nth_error inp i <> Some LF) /\
      (newline_at (skipn (s_cur t) inp) n \/
       (~ (exists m, newline_at (skipn (s_cur t) inp) m) /\ column u E (skipn (s_cur t) inp) n))).
    { destruct Hs as [(n & i & Ht & Hn & ->)|(n & i & Ht & Hm & Hn & ->)]; cbn [s_cur] in Hlt'; exists n; (split; [exact Hlt'|]).
      - assert (Ht' : match_newline E (skipn (s_cur t) inp) = Some n).
        { destruct u; cbn [policy try_match_newline] in Ht; destruct (match_newline E (skipn (s_cur t) inp)); try discriminate; congruence. }
        apply newline_match in Ht'; [|apply (rest_ok E inp Hinp)]. split; [|now left].
        apply newline_lf in Ht' as (_ & _ & _ & Hl). intros j Hj.
        specialize (Hl (j - s_cur t)%nat ltac:(lia)). rewrite nth_skipn in Hl. now replace (s_cur t + (j - s_cur t))%nat with j in Hl by lia.
      - rewrite H2 in Ht, Hm. assert (Ht' : forall m, ~ newline_at (skipn (s_cur t) inp) m).
        { apply newline_match_none with (E := E); [apply (rest_ok E inp Hinp)|].
          destruct u; cbn [policy try_match_newline] in Ht; destruct (match_newline E (skipn (s_cur t) inp)); congruence. }
        pose proof (column_found (s_cur t) n i L Hm) as Hcol.
        pose proof (column_no_lf (s_cur t) n L Hcol Ht') as Hno. split.
        + intros j Hj. specialize (Hno (j - s_cur t)%nat ltac:(lia)). rewrite nth_skipn in Hno.
          now replace (s_cur t + (j - s_cur t))%nat with j in Hno by lia.
        + right. split; [|exact Hcol]. intros (m & Hm'). exact (Ht' m Hm'). }
    destruct Hno as (n & Hn1 & Hn2 & Hn3). split; [|split; [|split; [|split]]].
    + rewrite H4. f_equal. replace pos with (s_cur t + (pos - s_cur t))%nat by lia. rewrite firstn_plus, newlines_app.
      rewrite (newlines_none (firstn (pos - s_cur t) _)); [lia|]. intros j Hj. apply (Hn2 (s_cur t + j)%nat).
      * apply nth_lt in Hj as Hj2. rewrite firstn_length in Hj2. lia.
      * rewrite <- nth_skipn. revert Hj. generalize (skipn (s_cur t) inp) (pos - s_cur t)%nat. clear. intros l n. revert j l. induction n as [|n IH]; intros [|j] [|x l]; cbn; try discriminate; auto.
    + split; [lia|]. split; [exact Hb2|]. intros j Hj. destruct (Nat.lt_ge_cases j (s_cur t)); [apply Hb3; lia|apply Hn2; lia].
    + eauto.
    + lia.
    + right. exists n. split; [lia|exact Hn3].
Qed.
End Text.
