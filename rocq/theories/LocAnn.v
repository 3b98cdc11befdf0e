(** Proofs about line annotations. *)
From Verif Require Import Prelude CodecModel CodecSpec CodecProofs SwarSpec LitModel LitSpec
  ClassModel ClassSpec ClassProofs TextModel TextSpec TextProofs LocModel LocSpec LocProofs LocText LocWf.
Open Scope N_scope.

Section Line.
Variables (E : lenc) (c : counting) (inp : list N).
Hypothesis Hinp : text_units E inp.
Notation steps := (steps E c inp).

Lemma steps_lb s t : good c s -> steps s t -> (s_lb s <= s_lb t)%nat.
Proof.
  intros Hg H. induction H as [s|s s' t Hs H IH]; [lia|].
  pose proof (stepf_good E c inp Hinp s s' Hg Hs) as Hg'. specialize (IH Hg'). destruct Hg as (Hg & _).
  apply stepf_inv in Hs as (_ & [(n & i & _ & Hn & ->)|(n & i & _ & _ & Hn & ->)]); [| |exact Hinp]; cbn [s_lb] in *; lia.
Qed.

(** The end of a line: the first newline, or the end of the input. *)
Definition line_end (t : lst) (ne : nat) : Prop :=
  (s_cur t = length inp /\ ne = length inp) \/
  ((s_cur t < length inp)%nat /\ exists n i, try_match_newline E c (s_idx t) (skipn (s_cur t) inp) = Some (n, i) /\
     (1 <= n <= length inp - s_cur t)%nat /\ ne = (s_cur t + n)%nat).

Lemma line_loop_end fuel : forall s, (s_cur s <= length inp)%nat -> (length inp - s_cur s < fuel)%nat ->
  exists t ne, line_loop fuel E c inp (s_idx s) (s_cur s) = Some (s_cur t, ne) /\
    steps s t /\ s_lb t = s_lb s /\ line_end t ne.
Proof.
  induction fuel as [|fuel IH]; intros s Hc Hf; [lia|].
  cbn [line_loop]. rewrite (rest_peek E inp Hinp).
  destruct (Nat.leb_spec (length inp) (s_cur s)) as [L|L].
  - exists s, (s_cur s). split; [reflexivity|]. split; [constructor|]. split; [reflexivity|]. left. lia.
  - destruct (stepf_some E c inp Hinp s L) as (s' & Hs). pose proof (stepf_cur E c inp Hinp s s' Hs) as Hcur.
    pose proof Hs as Hs'. apply stepf_inv in Hs' as (_ & [(n & i & Ht & Hn & ->)|(n & i & Ht & Hm & Hn & ->)]); [| |exact Hinp].
    + rewrite Ht. exists s, (s_cur s + n)%nat. split; [reflexivity|]. split; [constructor|]. split; [reflexivity|].
      right. split; [exact L|]. eauto.
    + rewrite Ht, Hm. destruct (IH (Lst i (s_cur s + n) (s_lb s) (s_nr s) (unsigned_inc (s_col s)))) as (t & ne & H1 & H2 & H3 & H4).
      * cbn in *. lia.
      * cbn in *. lia.
      * exists t, ne. split; [exact H1|]. split; [econstructor; eassumption|]. split; [exact H3|exact H4].
Qed.

(** The line of a location. *)
Lemma line_of_state u : wide c -> steps (start input_anchor) u -> (s_cur u <= length inp)%nat ->
  exists t ne, get_input_line E c inp (s_lb u) = Some (s_cur t, ne) /\
    steps (start input_anchor) t /\ s_lb t = s_lb u /\ steps u t /\ line_end t ne.
Proof.
  intros Hw Hu Hc. destruct (line_state E c inp Hinp u Hw Hu) as (H1 & H2).
  set (sl := Lst 0 (s_lb u) (s_lb u) (s_nr u) 1) in *.
  pose proof (steps_cur E c inp Hinp _ _ H2) as Hcur. cbn [s_cur sl] in Hcur.
  destruct (line_loop_end (S (length inp)) sl) as (t & ne & H3 & H4 & H5 & H6); [cbn; lia|cbn; lia|].
  exists t, ne. split; [exact H3|]. split; [eapply steps_trans; eassumption|]. split; [exact H5|]. split; [|exact H6].
  destruct (steps_linear E c inp _ _ _ H2 H4) as [H|H]; [exact H|].
  destruct H as [|t t' u Hs H]; [constructor|]. exfalso.
  assert (Hg : good c t) by (apply (steps_good E c inp Hinp (start input_anchor)); [now apply start_good|eapply steps_trans; eassumption]).
  pose proof (stepf_good E c inp Hinp _ _ Hg Hs) as Hg'. pose proof (steps_lb _ _ Hg' H) as Hlb.
  apply stepf_inv in Hs as (L & Hs); [|exact Hinp]. cbn [s_lb sl] in H5.
  destruct H6 as [(H6 & _)|(_ & n & i & Ht & Hn & _)]; [lia|].
  destruct Hs as [(n' & i' & Ht' & Hn' & ->)|(n' & i' & Ht' & _)]; [|congruence].
  cbn [s_lb] in Hlb. destruct Hg as (Hg & _). lia.
Qed.
End Line.

Lemma min_range a b : min_range_end a b = Nat.min a b.
Proof. unfold min_range_end. destruct (Nat.leb_spec a b); lia. Qed.

(** ** Code point boundaries *)

Lemma continuation_spec E x : (match E with Enc Utf8 => x < 256 | _ => True end) ->
  is_cp_continuation E x = true <-> continues E x.
Proof.
  destruct E as [|[]]; cbn; intros H; try (split; [discriminate|contradiction]).
  - assert (G : forallb (fun x => Bool.eqb (N.land x 192 =? 128) ((128 <=? x) && (x <? 192))) (map N.of_nat (seq 0 256)) = true) by (vm_compute; reflexivity).
    rewrite forallb_forall in G. specialize (G x). rewrite Bool.eqb_true_iff in G. rewrite G; [lia|].
    apply in_map_iff. exists (N.to_nat x). split; [lia|]. apply in_seq. lia.
  - lia.
Qed.

Lemma units_continuation E inp : text_units E inp -> forall i x, nth_error inp i = Some x ->
  is_cp_continuation E x = true <-> continues E x.
Proof.
  intros (H & _) i x Hx. apply continuation_spec. apply nth_error_In in Hx. rewrite Forall_forall in H. specialize (H _ Hx).
  destruct E as [|[]]; auto.
Qed.

Lemma continuations_spec E l :
  (forall i, (i < continuations E l)%nat -> exists x, nth_error l i = Some x /\ is_cp_continuation E x = true) /\
  (continuations E l = length l \/ (continuations E l < length l)%nat /\
     exists x, nth_error l (continuations E l) = Some x /\ is_cp_continuation E x = false).
Proof.
  induction l as [|y l (IH1 & IH2)]; cbn [continuations].
  - split; [lia|]. now left.
  - destruct (is_cp_continuation E y) eqn:Hy.
    + split.
      * intros [|i] Hi; [cbn; eauto|]. cbn. apply IH1. lia.
      * destruct IH2 as [->|(H1 & H2)]; [now left|right]. split; [cbn; lia|exact H2].
    + split; [lia|]. right. split; [cbn; lia|]. cbn. eauto.
Qed.

Lemma nth_firstn {A} (l : list A) n i : (i < n)%nat -> nth_error (firstn n l) i = nth_error l i.
Proof. revert l i. induction n as [|n IH]; intros [|x l] [|i] H; cbn; try lia; auto. apply IH. lia. Qed.

Lemma boundary_spec E inp w ne : text_units E inp -> (w <= ne <= length inp)%nat ->
  rounds_up E inp w ne (find_cp_boundary E inp w ne) /\ (find_cp_boundary E inp w ne <= ne)%nat.
Proof.
  intros Ht Hw. unfold find_cp_boundary. set (l := firstn (ne - w) (skipn w inp)).
  assert (Hl : length l = (ne - w)%nat) by (unfold l; rewrite firstn_length, skipn_length; lia).
  assert (Hnth : forall i, (i < ne - w)%nat -> nth_error l i = nth_error inp (w + i)).
  { intros i Hi. unfold l. rewrite nth_firstn by exact Hi. apply nth_skipn. }
  destruct (continuations_spec E l) as (H1 & H2).
  assert (Hle : (continuations E l <= ne - w)%nat) by (destruct H2 as [->|(H2 & _)]; lia).
  split; [|lia]. split; [lia|]. split.
  - intros i Hi. destruct (H1 (i - w)%nat ltac:(lia)) as (x & Hx & Hc). rewrite Hnth in Hx by lia.
    replace (w + (i - w))%nat with i in Hx by lia. exists x. split; [exact Hx|]. now apply (units_continuation E inp Ht i).
  - destruct H2 as [->|(H2 & x & Hx & Hc)]; [left; lia|right]. split; [lia|]. exists x. rewrite Hnth in Hx by lia.
    split; [exact Hx|]. intros Hc'. apply (units_continuation E inp Ht _ _ Hx) in Hc'. congruence.
Qed.

(** ** The annotation *)

Lemma line_annotation_spec E inp tr lb le ne b w : text_units E inp ->
  (lb <= b <= w)%nat -> (b <= le <= ne)%nat -> (w <= ne <= length inp)%nat ->
  annotates E inp lb le ne b w (line_annotation E inp tr lb le ne b w) /\
  an_truncated (line_annotation E inp tr lb le ne b w) = tr.
Proof.
  intros Ht Hb Hle Hw. destruct (boundary_spec E inp w ne Ht Hw) as (Hr & Hrn).
  unfold line_annotation. set (r := find_cp_boundary E inp w ne) in *. rewrite min_range.
  destruct (Nat.eqb_spec (Nat.min le r) r) as [H|H]; (split; [|reflexivity]).
  - exists r, r, le. cbn. split; [exact Hr|]. do 3 (split; [reflexivity|]). split; [destruct Hr; lia|]. split; [lia|].
    split; [left; split; [lia|auto]|]. destruct (Nat.eqb_spec r w); cbn; split; congruence.
  - exists r, ne, ne. cbn. split; [exact Hr|]. do 3 (split; [reflexivity|]). split; [lia|]. split; [lia|].
    split; [right; split; [lia|auto]|]. destruct (Nat.eqb_spec r w); cbn; split; congruence.
Qed.

Lemma annotation_to_spec E c inp l le ne end_ : text_units E inp ->
  get_input_line E c inp (lo_line_begin l) = Some (le, ne) ->
  (lo_line_begin l <= lo_column_begin l <= le)%nat -> (le <= ne <= length inp)%nat -> (lo_column_begin l <= end_)%nat ->
  exists w a, annotation_to E c inp l end_ = Some a /\ wanted (lo_column_begin l) end_ le ne w /\
    annotates E inp (lo_line_begin l) le ne (lo_column_begin l) w a /\
    (an_truncated a = true <-> (ne < end_)%nat).
Proof.
  intros Ht Hline Hb Hle He. unfold annotation_to. rewrite Hline. set (b := lo_column_begin l) in *.
  rewrite min_range. destruct (Nat.eqb_spec b end_) as [<-|Hne].
  - destruct (Nat.eqb_spec b le) as [Hbl|Hbl].
    + exists ne. eexists. split; [reflexivity|]. split; [right; left; auto|].
      destruct (line_annotation_spec E inp false (lo_line_begin l) le ne b ne Ht ltac:(lia) ltac:(lia) ltac:(lia)) as (H1 & ->).
      split; [exact H1|]. split; [discriminate|lia].
    + exists (S b). eexists. split; [reflexivity|]. split; [right; right; lia|].
      destruct (Nat.eqb_spec b ne); [lia|]. cbn [negb].
      destruct (line_annotation_spec E inp false (lo_line_begin l) le ne b (S b) Ht ltac:(lia) ltac:(lia) ltac:(lia)) as (H1 & ->).
      split; [exact H1|]. split; [discriminate|lia].
  - exists (Nat.min end_ ne). eexists. split; [reflexivity|]. split; [left; lia|].
    destruct (Nat.eqb_spec (Nat.min end_ ne) end_) as [H|H]; cbn [negb].
    + rewrite H. destruct (line_annotation_spec E inp false (lo_line_begin l) le ne b end_ Ht ltac:(lia) ltac:(lia) ltac:(lia)) as (H1 & ->).
      split; [exact H1|]. split; [discriminate|lia].
    + replace (Nat.min end_ ne) with ne by lia.
      destruct (line_annotation_spec E inp true (lo_line_begin l) le ne b ne Ht ltac:(lia) ltac:(lia) ltac:(lia)) as (H1 & ->).
      split; [exact H1|]. split; [lia|reflexivity].
Qed.

(** Between the begin of a newline and its end, no unit continues a code point. *)
Lemma annotation_of_to E c inp l le ne size : text_units E inp ->
  get_input_line E c inp (lo_line_begin l) = Some (le, ne) ->
  (lo_line_begin l <= lo_column_begin l <= le)%nat -> (le <= ne <= length inp)%nat ->
  (ne - le <= 1 \/ newline_at (skipn le inp) (ne - le))%nat ->
  annotation_of E c inp l size = annotation_to E c inp l (lo_column_begin l + size).
Proof.
  intros Ht Hline Hb Hle Hnl. unfold annotation_of, annotation_to. rewrite Hline. set (b := lo_column_begin l) in *.
  f_equal. rewrite min_range. unfold next_clamped.
  destruct (Nat.eqb_spec size 0) as [->|Hs].
  - rewrite Nat.add_0_r, Nat.eqb_refl.
    destruct (Nat.ltb_spec (ne - b) 1) as [L|L].
    + assert (b = ne) by lia. assert (b = le) by lia. subst le. rewrite Nat.eqb_refl.
      replace (ne - b <? 0)%nat with false by (symmetry; apply Nat.ltb_ge; lia). reflexivity.
    + replace (b + 1 - b <? 0)%nat with false by (symmetry; apply Nat.ltb_ge; lia). rewrite Nat.add_1_r.
      destruct (Nat.eqb_spec b le) as [Hbl|Hbl].
      * destruct (Nat.eq_dec ne (S b)) as [->|Hn2]; [reflexivity|].
        destruct Hnl as [Hnl|Hnl]; [lia|].
        assert (Hnth : nth_error inp (S le) = Some LF /\ ne = S (S le)).
        { destruct Hnl as [(H1 & _)|(H2 & r & Hr)]; [lia|]. split; [|lia].
          replace (S le) with (le + 1)%nat by lia. rewrite <- nth_skipn, Hr. reflexivity. }
        destruct Hnth as (Hnth & Hne). unfold line_annotation.
        destruct (boundary_spec E inp (S b) ne Ht ltac:(lia)) as ((G1 & G2 & G3) & G4).
        destruct (boundary_spec E inp ne ne Ht ltac:(lia)) as ((F1 & _) & F4).
        set (r := find_cp_boundary E inp (S b) ne) in *. set (r2 := find_cp_boundary E inp ne ne) in *.
        assert (Hr : r = S b).
        { destruct (Nat.eq_dec r (S b)) as [|Hx]; [assumption|]. exfalso.
          destruct (G2 (S b) ltac:(lia)) as (x & Hx1 & Hx2). rewrite Hbl, Hnth in Hx1. injection Hx1 as <-.
          destruct E as [|[]]; cbn in Hx2; unfold LF in *; try contradiction; lia. }
        assert (Hr2 : r2 = ne) by lia. rewrite Hr, Hr2, !min_range.
        destruct (Nat.eqb_spec (Nat.min le (S b)) (S b)); [lia|].
        destruct (Nat.eqb_spec (Nat.min le ne) ne); [lia|]. now rewrite !Nat.eqb_refl.
      * destruct (Nat.eqb_spec b ne); [lia|]. reflexivity.
  - destruct (Nat.eqb_spec b (b + size)); [lia|].
    destruct (Nat.ltb_spec (ne - b) size) as [L|L].
    + destruct (Nat.eqb_spec (Nat.min (b + size) ne) (b + size)); [lia|]. cbn [negb].
      replace (ne - b <? size)%nat with true by (symmetry; apply Nat.ltb_lt; lia). reflexivity.
    + destruct (Nat.eqb_spec (Nat.min (b + size) ne) (b + size)); [|lia]. cbn [negb].
      replace (b + size - b <? size)%nat with false by (symmetry; apply Nat.ltb_ge; lia). reflexivity.
Qed.

(** ** Lines of text *)

Section TextLine.
Variables (u : column_unit) (E : lenc) (inp : list N).
Hypothesis Hinp : text_units E inp.

Lemma policy_wide : wide (policy u).
Proof. now destruct u. Qed.

Lemma policy_newline idx rest : try_match_newline E (policy u) idx rest =
  match match_newline E rest with Some n => Some (n, idx) | None => None end.
Proof. now destruct u. Qed.

Definition no_newline (a b : nat) : Prop := forall i n, (a <= i < b)%nat -> ~ newline_at (skipn i inp) n.

Lemma step_no_newline s s' : good (policy u) s -> stepf E (policy u) inp s = Some s' -> s_lb s' = s_lb s -> no_newline (s_cur s) (s_cur s').
Proof.
  intros (Hg & Hidx) Hs Hlb. assert (Hi0 : s_idx s = 0%nat) by (destruct u; exact Hidx).
  apply stepf_inv in Hs as (L & [(n & i & Ht & Hn & ->)|(n & i & Ht & Hm & Hn & ->)]); [| |exact Hinp]; cbn [s_lb s_cur] in *; [lia|].
  rewrite policy_newline in Ht. rewrite Hi0 in Hm.
  assert (Hno : forall m, ~ newline_at (skipn (s_cur s) inp) m).
  { apply newline_match_none with (E := E); [apply (rest_ok E inp Hinp)|]. destruct (match_newline _ _); congruence. }
  pose proof (column_found u E inp Hinp (s_cur s) n i L Hm) as Hcol.
  intros j m Hj Hm'. destruct (Nat.eq_dec j (s_cur s)) as [->|Hne]; [exact (Hno m Hm')|].
  assert (Hr : exists x, reads E (skipn (s_cur s) inp) x n).
  { destruct u; cbn [column] in Hcol; [destruct Hcol; lia|]. destruct Hcol as [H|(H & _)]; [exact H|lia]. }
  destruct Hr as (x & Hr).
  assert (Hy : exists y, nth_error inp j = Some y /\ y < 128).
  { replace j with (j + 0)%nat by lia. destruct Hm' as [(_ & r & Hr')|(_ & r & Hr')]; eexists; rewrite <- nth_skipn, Hr'; cbn; (split; [reflexivity|lia]). }
  destruct Hy as (y & Hy & Hy').
  assert (G : 128 <= y); [|lia].
  apply (reads_multi E _ x n (proj1 (rest_ok E inp Hinp (s_cur s))) Hr ltac:(lia) (j - s_cur s)%nat); [lia|].
  rewrite nth_skipn. now replace (s_cur s + (j - s_cur s))%nat with j by lia.
Qed.

Lemma steps_no_newline s t : good (policy u) s -> steps E (policy u) inp s t -> s_lb t = s_lb s -> no_newline (s_cur s) (s_cur t).
Proof.
  intros Hg H. induction H as [s|s s' t Hs H IH]; intros Hlb; [intros i n Hi; lia|].
  pose proof (stepf_good E _ inp Hinp s s' Hg Hs) as Hg'.
  pose proof (steps_lb E _ inp Hinp s' t Hg' H) as L1.
  assert (L2 : (s_lb s <= s_lb s')%nat) by (apply (steps_lb E (policy u) inp Hinp); [exact Hg|econstructor; [exact Hs|constructor]]).
  pose proof (step_no_newline s s' Hg Hs ltac:(lia)) as H1. specialize (IH Hg' ltac:(lia)).
  intros i n Hi. destruct (Nat.lt_ge_cases i (s_cur s')); [apply H1; lia|apply IH; lia].
Qed.

Lemma text_line pos l : (pos <= length inp)%nat ->
  get_input_location E (policy u) inp pos input_anchor = Loc l ->
  exists le ne, get_input_line E (policy u) inp (lo_line_begin l) = Some (le, ne) /\
    line_is inp (lo_line_begin l) le ne /\ (lo_line_begin l <= lo_column_begin l <= le)%nat.
Proof.
  intros Hp Hl. destruct (get_final E (policy u) inp Hinp pos input_anchor ltac:(cbn; lia)) as (s & (Hst & Hend) & Hg).
  rewrite Hg in Hl. injection Hl as <-. cbn [loc_of lo_line_begin lo_column_begin].
  assert (Hc : (s_cur s <= length inp)%nat) by (destruct Hend; lia).
  destruct (line_of_state E (policy u) inp Hinp s policy_wide Hst Hc) as (t & ne & H1 & H2 & H3 & H4 & H5).
  exists (s_cur t), ne. split; [exact H1|].
  pose proof (steps_cur E _ inp Hinp _ _ H4) as Hcur.
  assert (Hgs : good (policy u) s) by (apply (steps_good E _ inp Hinp (start input_anchor)); [apply start_good, policy_wide|exact Hst]).
  assert (Hlb : (s_lb s <= s_cur s)%nat) by apply Hgs.
  split; [|lia]. split; [|split; [|split]].
  - destruct H5 as [H5|(_ & n & i & _ & H5)]; lia.
  - destruct H5 as [H5|(_ & n & i & _ & H5)]; lia.
  - destruct (line_state E _ inp Hinp t policy_wide H2) as (_ & Hl).
    rewrite <- H3. apply (steps_no_newline (Lst 0 (s_lb t) (s_lb t) (s_nr t) 1)); [|exact Hl|reflexivity].
    split; cbn; [lia|]. now destruct u.
  - destruct H5 as [H5|(_ & n & i & Ht & Hn & ->)]; [right; lia|left].
    rewrite policy_newline in Ht. destruct (match_newline E (skipn (s_cur t) inp)) as [m|] eqn:Hm; [|discriminate]. injection Ht as -> _.
    apply newline_match in Hm; [|apply (rest_ok E inp Hinp)]. now replace (s_cur t + n - s_cur t)%nat with n by lia.
Qed.
End TextLine.

(** ** Lines of bytes *)

Lemma byte_line_found E inp w pos l : text_units E inp -> (0 < w)%nat -> (pos <= length inp)%nat ->
  get_input_location E (CBytes w) inp pos input_anchor = Loc l ->
  exists le ne, get_input_line E (CBytes w) inp (lo_line_begin l) = Some (le, ne) /\
    byte_line inp w (lo_line_begin l) ne /\ (lo_line_begin l <= lo_column_begin l <= le)%nat /\
    (le <= ne <= length inp)%nat /\ (ne - le <= 1)%nat /\ (le = ne \/ le = lo_line_begin l + (w - 1))%nat.
Proof.
  intros Hinp Hw Hp Hl. destruct (get_final E (CBytes w) inp Hinp pos input_anchor ltac:(cbn; lia)) as (s & (Hst & Hend) & Hg).
  pose proof (byte_location E inp w Hinp Hw pos Hp) as Hbl. rewrite Hl in Hbl. injection Hbl as Hbl.
  rewrite Hg in Hl. injection Hl as <-. cbn [loc_of lo_line_begin lo_column_begin] in *. injection Hbl as Hb1 Hb2 Hb3 Hb4.
  destruct (line_of_state E (CBytes w) inp Hinp s Hw Hst ltac:(lia)) as (t & ne & H1 & H2 & H3 & H4 & H5).
  exists (s_cur t), ne. split; [exact H1|].
  pose proof (steps_cur E _ inp Hinp _ _ H4) as Hcur.
  assert (Hgt : good (CBytes w) t) by (apply (steps_good E _ inp Hinp (start input_anchor)); [now apply start_good|exact H2]).
  destruct Hgt as (Hg1 & _ & Hg2 & Hg3). rewrite H3 in *.
  assert (Hgs : good (CBytes w) s) by (apply (steps_good E _ inp Hinp (start input_anchor)); [now apply start_good|exact Hst]).
  destruct Hgs as (Hg4 & _).
  assert (Hk : exists k, s_lb s = (k * w)%nat) by (eexists; exact Hb1).
  destruct H5 as [(H5 & ->)|(L & n & i & Ht & Hn & ->)].
  - split; [|lia]. split; [exact Hk|]. lia.
  - cbn [try_match_newline] in Ht. rewrite (rest_peek E inp Hinp) in Ht.
    destruct (Nat.leb_spec (length inp) (s_cur t)); [lia|].
    destruct (Nat.eqb_spec (s_idx t) (w - 1)) as [Hi|]; [|discriminate]. injection Ht as <- _.
    split; [|lia]. split; [exact Hk|]. lia.
Qed.

(** ** Summary lemmas *)

Lemma units_columns E rest n k : columns PerUnit E rest n k -> k = n.
Proof. induction 1 as [|rest m n k Hc _ IH]; [reflexivity|]. destruct Hc as (-> & _). lia. Qed.

Lemma units_location E inp pos : text_units E inp -> (pos <= length inp)%nat ->
  ((0 < pos)%nat -> ~ newline_at (skipn (pos - 1) inp) 2) ->
  exists b, line_begins inp pos b /\
    get_input_location E CUnits inp pos input_anchor =
    Loc (Location b (as_unsigned (1 + newlines (firstn pos inp))) pos (as_unsigned (1 + (pos - b)))).
Proof.
  intros Hi Hp Hnl. destruct (text_location PerUnit E inp Hi pos Hp) as (l & Hl & H1 & H2 & (k & H3 & H4) & H5 & H6).
  apply units_columns in H3. subst k. exists (lo_line_begin l). split; [exact H2|]. cbn [policy] in Hl. rewrite Hl.
  assert (Hc : lo_column_begin l = pos).
  { destruct H6 as [H6|(n & Hn & H6)]; [now symmetry|]. exfalso. destruct H6 as [H6|(_ & -> & _)]; [|lia].
    assert (Hn2 : n = 2%nat) by (destruct H6 as [(-> & _)|(-> & _)]; lia). subst n.
    apply Hnl; [lia|]. now replace (pos - 1)%nat with (lo_column_begin l) by lia. }
  destruct l as [lb nr cb cn]. cbn in *. subst. reflexivity.
Qed.

(** A position between CR and LF is at the CR. *)
Lemma steps_last E c inp s t : steps E c inp s t -> s = t \/ exists t', steps E c inp s t' /\ stepf E c inp t' = Some t.
Proof.
  induction 1 as [|s s' t Hs H IH]; [now left|]. right. destruct IH as [->|(t' & H1 & H2)].
  - exists s. split; [constructor|exact Hs].
  - exists t'. split; [econstructor; eassumption|exact H2].
Qed.
Lemma inside_newline_location u E inp pos l : text_units E inp -> (pos < length inp)%nat -> (0 < pos)%nat ->
  newline_at (skipn (pos - 1) inp) 2 -> get_input_location E (policy u) inp pos input_anchor = Loc l ->
  S (lo_column_begin l) = pos.
Proof.
  intros Hi Hp H0 Hnl Hl.
  assert (Hchars : nth_error inp (pos - 1) = Some CR).
  { destruct Hnl as [(? & _)|(_ & l' & Hn)]; [lia|]. rewrite <- (Nat.add_0_r (pos - 1)), <- nth_skipn, Hn. reflexivity. }
  destruct (get_final E (policy u) inp Hi pos input_anchor ltac:(cbn; lia)) as (t & (Ht1 & Ht2) & Hg). rewrite Hg in Hl. injection Hl as <-.
  cbn [loc_of lo_column_begin].
  assert (Hnot : s_cur t <> pos).
  { intros Hc. destruct (steps_last _ _ _ _ _ Ht1) as [<-|(t' & Ht' & Hs)]; [cbn in Hc; lia|].
    pose proof (text_steps u E inp Hi t' Ht') as (_ & Hidx & _).
    apply stepf_inv in Hs as (L & [(n & i & Ht & Hn & ->)|(n & i & Ht & Hm & Hn & ->)]); [| |exact Hi]; cbn [s_cur] in Hc.
    - assert (Hm : match_newline E (skipn (s_cur t') inp) = Some n).
      { destruct u; cbn [policy try_match_newline] in Ht; destruct (match_newline E (skipn (s_cur t') inp)); congruence. }
      apply newline_match in Hm; [|apply (rest_ok E inp Hi)].
      apply newline_lf in Hm as (_ & Hm & _). rewrite nth_skipn in Hm.
      replace (s_cur t' + (n - 1))%nat with (pos - 1)%nat in Hm by lia. rewrite Hchars in Hm. discriminate.
    - assert (Hno : forall m, ~ newline_at (skipn (s_cur t') inp) m).
      { apply newline_match_none with (E := E); [apply (rest_ok E inp Hi)|].
        destruct u; cbn [policy try_match_newline] in Ht; destruct (match_newline E (skipn (s_cur t') inp)); congruence. }
      assert (H1 : n <> 1%nat).
      { intros ->. apply (Hno 2%nat). replace (s_cur t') with (pos - 1)%nat by lia. exact Hnl. }
      rewrite Hidx in Hm.
      pose proof (column_found u E inp Hi (s_cur t') n i L Hm) as Hcol.
      destruct u; [apply H1, Hcol|]. destruct Hcol as [(c & Hr)|(-> & _)]; [|contradiction].
      assert (Hx : nth_error (skipn (s_cur t') inp) (n - 1) = Some CR).
      { rewrite nth_skipn. now replace (s_cur t' + (n - 1))%nat with (pos - 1)%nat by lia. }
      pose proof (reads_multi E _ c n (proj1 (rest_ok E inp Hi (s_cur t'))) Hr ltac:(lia) (n - 1)%nat CR ltac:(lia) Hx). unfold CR in *. lia. }
  destruct Ht2 as [Ht2|(Hlt & t' & Hs & Hgt)]; [contradiction|].
  pose proof (text_steps u E inp Hi t Ht1) as (_ & Hidx & _).
  apply stepf_inv in Hs as (L & [(n & i & Ht & Hn & ->)|(n & i & Ht & Hm & Hn & ->)]); [| |exact Hi]; cbn [s_cur] in Hgt.
  - assert (Hm : match_newline E (skipn (s_cur t) inp) = Some n).
    { destruct u; cbn [policy try_match_newline] in Ht; destruct (match_newline E (skipn (s_cur t) inp)); congruence. }
    apply newline_match in Hm; [|apply (rest_ok E inp Hi)]. destruct Hm as [(-> & _)|(-> & _)]; lia.
  - rewrite Hidx in Hm. pose proof (column_found u E inp Hi (s_cur t) n i L Hm) as Hcol.
    destruct u; [destruct Hcol; lia|]. destruct Hcol as [(c & Hr)|(-> & _)]; [|lia].
    assert (Hx : nth_error (skipn (s_cur t) inp) (pos - 1 - s_cur t) = Some CR).
    { rewrite nth_skipn. now replace (s_cur t + (pos - 1 - s_cur t))%nat with (pos - 1)%nat by lia. }
    destruct (Nat.eq_dec (s_cur t) (pos - 1)) as [Hq|Hq]; [lia|].
    pose proof (reads_multi E _ c n (proj1 (rest_ok E inp Hi (s_cur t))) Hr ltac:(lia) (pos - 1 - s_cur t)%nat CR ltac:(lia) Hx). unfold CR in *. lia.
Qed.

Section Annotation.
Variables (u : column_unit) (E : lenc) (inp : list N).
Hypothesis Hinp : text_units E inp.

Lemma text_annotation pos l end_ : (pos <= length inp)%nat ->
  get_input_location E (policy u) inp pos input_anchor = Loc l -> (lo_column_begin l <= end_)%nat ->
  exists le ne w a, annotation_to E (policy u) inp l end_ = Some a /\
    line_is inp (lo_line_begin l) le ne /\ (lo_column_begin l <= le)%nat /\
    wanted (lo_column_begin l) end_ le ne w /\
    annotates E inp (lo_line_begin l) le ne (lo_column_begin l) w a /\
    (an_truncated a = true <-> (ne < end_)%nat).
Proof.
  intros Hp Hl He. destruct (text_line u E inp Hinp pos l Hp Hl) as (le & ne & H1 & H2 & H3).
  pose proof H2 as (H4 & H5 & _).
  destruct (annotation_to_spec E (policy u) inp l le ne end_ Hinp H1 H3 ltac:(lia) He) as (w & a & G1 & G2 & G3 & G4).
  exists le, ne, w, a. split; [exact G1|]. split; [exact H2|]. split; [lia|]. auto.
Qed.

Lemma text_annotation_size pos l size : (pos <= length inp)%nat ->
  get_input_location E (policy u) inp pos input_anchor = Loc l ->
  annotation_of E (policy u) inp l size = annotation_to E (policy u) inp l (lo_column_begin l + size).
Proof.
  intros Hp Hl. destruct (text_line u E inp Hinp pos l Hp Hl) as (le & ne & H1 & H2 & H3).
  pose proof H2 as (H4 & H5 & _ & H6). apply (annotation_of_to E (policy u) inp l le ne); auto; [lia|].
  destruct H6 as [H6|H6]; [now right|left; lia].
Qed.
End Annotation.

Lemma byte_annotation E inp w pos l end_ : text_units E inp -> (0 < w)%nat -> (pos <= length inp)%nat ->
  get_input_location E (CBytes w) inp pos input_anchor = Loc l -> (lo_column_begin l <= end_)%nat ->
  exists le ne x a, annotation_to E (CBytes w) inp l end_ = Some a /\
    byte_line inp w (lo_line_begin l) ne /\ (le = ne \/ S le = ne)%nat /\ (lo_column_begin l <= le)%nat /\
    wanted (lo_column_begin l) end_ le ne x /\
    annotates E inp (lo_line_begin l) le ne (lo_column_begin l) x a /\
    (an_truncated a = true <-> (ne < end_)%nat).
Proof.
  intros Hinp Hw Hp Hl He. destruct (byte_line_found E inp w pos l Hinp Hw Hp Hl) as (le & ne & H1 & H2 & H3 & H4 & H5 & _).
  destruct (annotation_to_spec E (CBytes w) inp l le ne end_ Hinp H1 H3 ltac:(lia) He) as (x & a & G1 & G2 & G3 & G4).
  exists le, ne, x, a. split; [exact G1|]. split; [exact H2|]. split; [lia|]. split; [lia|]. auto.
Qed.

Lemma byte_annotation_size E inp w pos l size : text_units E inp -> (0 < w)%nat -> (pos <= length inp)%nat ->
  get_input_location E (CBytes w) inp pos input_anchor = Loc l ->
  annotation_of E (CBytes w) inp l size = annotation_to E (CBytes w) inp l (lo_column_begin l + size).
Proof.
  intros Hinp Hw Hp Hl. destruct (byte_line_found E inp w pos l Hinp Hw Hp Hl) as (le & ne & H1 & H2 & H3 & H4 & H5 & _).
  apply (annotation_of_to E (CBytes w) inp l le ne); auto.
Qed.

(** *** Code points of well-formed text *)

Lemma boundary_after e cps p x : Forall (valid1 e) cps -> nth_error (encoded e cps) p = Some x -> x < 128 ->
  boundary e cps (S p).
Proof.
  intros Hv. unfold boundary. revert p. induction Hv as [|c cs Hvc Hvcs IH]; intros p Hp Hx; [destruct p; discriminate|].
  destruct (enc_shape e c Hvc) as (y & r & He & H1 & H2 & _ & Hr).
  assert (Hcs : encoded e (c :: cs) = encode_code_point e c ++ encoded e cs) by reflexivity.
  rewrite Hcs in Hp.
  destruct (Nat.lt_ge_cases p (length (encode_code_point e c))) as [L|L].
  - rewrite nth_error_app1 in Hp by exact L. destruct (N.lt_ge_cases c 128) as [Hc|Hc].
    + destruct (H1 Hc) as (-> & ->). exists [c], cs. split; [reflexivity|].
      replace (encoded e [c]) with (encode_code_point e c ++ []) by reflexivity. rewrite app_nil_r, He. rewrite He in L. cbn in *. lia.
    + exfalso. rewrite He in Hp. destruct p as [|p]; cbn in Hp; [injection Hp as <-; specialize (H2 Hc); lia|].
      apply nth_error_In in Hp. rewrite Forall_forall in Hr. specialize (Hr _ Hp). destruct e; cbn in Hr; lia.
  - rewrite nth_error_app2 in Hp by exact L. destruct (IH _ Hp Hx) as (pre & post & G1 & G2).
    exists (c :: pre), post. rewrite G1. split; [reflexivity|].
    replace (encoded e (c :: pre)) with (encode_code_point e c ++ encoded e pre) by reflexivity. rewrite app_length. lia.
Qed.

Lemma boundary_end e cps : boundary e cps (length (encoded e cps)).
Proof. exists cps, []. now rewrite app_nil_r. Qed.

Lemma line_boundary e cps b le ne : Forall (valid1 e) cps -> line_is (encoded e cps) b le ne -> boundary e cps ne.
Proof.
  intros Hv (H1 & H2 & _ & [H3|(_ & ->)]); [|apply boundary_end].
  apply newline_lf in H3 as (_ & H4 & H5 & _). rewrite nth_skipn in H4.
  replace ne with (S (le + (ne - le - 1))) by lia. eapply boundary_after; [exact Hv|exact H4|unfold LF; lia].
Qed.

Lemma annotation_boundaries e cps pos l end_ : valid e cps -> text_units (Enc e) (encoded e cps) ->
  (pos <= length (encoded e cps))%nat ->
  get_input_location (Enc e) CPoints (encoded e cps) pos input_anchor = Loc l -> (lo_column_begin l <= end_)%nat ->
  exists a b f, annotation_to (Enc e) CPoints (encoded e cps) l end_ = Some a /\ an_annotated a = (b, f) /\
    boundary e cps b /\ boundary e cps f.
Proof.
  intros Hv Hinp Hp Hl He.
  destruct (text_annotation PerPoint (Enc e) _ Hinp pos l end_ Hp Hl He) as (le & ne & w & a & G1 & G2 & G3 & G4 & G5 & _).
  destruct G5 as (r & f & x & Hr & _ & Ha & _ & _ & _ & Hd & _).
  exists a, (lo_column_begin l), f. split; [exact G1|]. split; [exact Ha|]. split.
  - destruct (get_final (Enc e) CPoints _ Hinp pos input_anchor ltac:(cbn; lia)) as (s & (Hst & _) & Hg).
    rewrite Hg in Hl. injection Hl as <-. cbn [loc_of lo_column_begin]. now apply (wf_boundary e cps Hv Hinp).
  - pose proof (line_boundary e cps _ le ne Hv G2) as Hb.
    destruct Hd as [(H1 & -> & _)|(_ & -> & _)]; [|exact Hb].
    destruct Hr as (_ & _ & [->|(Hlt & y & Hy & Hy')]); [exact Hb|].
    apply (boundary_units e cps Hv); [destruct G2 as (_ & G2 & _); lia|]. intros z Hz. congruence.
Qed.
