(** What is traced. *)
From Coq Require Import String Ascii.
From Verif Require Import Prelude CodecModel CodecSpec LitModel LitSpec SwarSpec ClassSpec TextSpec LocModel LocSpec LocProofs LocText LocWf LocAnn RuleModel
  VisModel VisSpec VisProofs VisText VisShow VisInj VisMain RepModel RepSpec RepText RepProofs RepMain PtModel TvModel TvSpec TvProofs TvMain
  TrModel TrSpec TrProofs.
Close Scope string_scope.
Open Scope N_scope.

(** ** Lines *)
Lemma nth_error_firstn_lt {A} (l : list A) : forall n i, (i < n)%nat -> nth_error (firstn n l) i = nth_error l i.
Proof.
  induction l as [|x l IH]; intros n i H; [now rewrite firstn_nil|]. destruct n; [lia|]. destruct i; [reflexivity|].
  cbn. apply IH. lia.
Qed.
Lemma has_LF_false l : existsb (fun x => x =? LF) l = false <-> ~ In LF l.
Proof.
  split.
  - intros H Hi. assert (existsb (fun x => x =? LF) l = true); [|congruence]. apply existsb_exists. exists LF. split; [exact Hi|apply N.eqb_refl].
  - intros H. destruct (existsb (fun x => x =? LF) l) eqn:E; [|reflexivity]. apply existsb_exists in E as (x & Hx & He).
    apply N.eqb_eq in He as ->. contradiction.
Qed.
Lemma last_line_split l : exists pre, l = pre ++ last_line l /\ ~ In LF (last_line l) /\ (pre = [] \/ exists p, pre = p ++ [LF]).
Proof.
  induction l as [|c l (pre & IH1 & IH2 & IH3)]; [exists []; cbn; auto|]. cbn [last_line].
  destruct (existsb (fun x => x =? LF) l) eqn:E.
  - exists (c :: pre). split; [cbn; now rewrite <- IH1|]. split; [exact IH2|]. right. destruct IH3 as [->|(p & ->)]; [|now exists (c :: p)].
    cbn [app] in IH1. rewrite <- IH1 in IH2. apply has_LF_false in IH2. congruence.
  - apply has_LF_false in E. destruct (N.eqb_spec c LF) as [->|Hc].
    + exists [LF]. split; [reflexivity|]. split; [exact E|]. right. now exists [].
    + exists []. split; [reflexivity|]. split; [|now left]. intros [H|H]; [congruence|contradiction].
Qed.
Lemma line_begins_unique inp p b b' : line_begins inp p b -> line_begins inp p b' -> b = b'.
Proof.
  intros (H1 & H2 & H3) (H1' & H2' & H3'). destruct (Nat.lt_trichotomy b b') as [H|[H|H]]; [|exact H|].
  - exfalso. destruct H2' as [->|H2']; [lia|]. apply (H3 (b' - 1)%nat); [lia|exact H2'].
  - exfalso. destruct H2 as [->|H2]; [lia|]. apply (H3' (b - 1)%nat); [lia|exact H2].
Qed.
Lemma begins_last_line inp p : (p <= length inp)%nat -> line_begins inp p (p - length (last_line (firstn p inp))).
Proof.
  intros Hp. destruct (last_line_split (firstn p inp)) as (pre & H1 & H2 & H3). set (ll := last_line (firstn p inp)) in *.
  assert (HL : (length pre + length ll = p)%nat).
  { apply (f_equal (@length N)) in H1. rewrite app_length, firstn_length in H1. lia. }
  assert (Hn : forall i, (i < p)%nat -> nth_error inp i = nth_error (pre ++ ll) i).
  { intros i Hi. rewrite <- H1. rewrite nth_error_firstn_lt by lia. reflexivity. }
  split; [lia|]. split.
  - destruct H3 as [->|(q & ->)]; [left; cbn [length] in HL; lia|]. right. rewrite app_length in HL. cbn [length] in HL.
    rewrite Hn by lia. rewrite <- app_assoc. replace (p - length ll - 1)%nat with (length q + 0)%nat by lia.
    rewrite nth_error_app2 by lia. replace (length q + 0 - length q)%nat with O by lia. reflexivity.
  - intros i Hi H. rewrite Hn in H by lia. rewrite nth_error_app2 in H by lia. apply H2. eapply nth_error_In. exact H.
Qed.

Lemma columns_units E rest n k : columns PerUnit E rest n k -> n = k.
Proof. induction 1 as [|rest m n k (-> & _) _ IH]; [reflexivity|]. now rewrite IH. Qed.

Section Input.
Variables (e : input_encoding) (inp : list N).
Hypothesis Hinp : text_units (unit_encoding e) inp.
Hypothesis Hlen : N.of_nat (length inp) + 1 < 2 ^ 32.
Notation line_start := (line_start e inp).
Notation line_of := (line_of e inp).
Notation column_of := (column_of e inp).

Definition spot (p : nat) (lo : location) : Prop :=
  counted e inp p lo /\ lo_line_begin lo = line_start p /\
  lo_line_nr lo = N.of_nat (line_of p) /\ lo_column_nr lo = N.of_nat (column_of p).
Lemma spot_exists p : (p <= length inp)%nat -> exists lo, spot p lo.
Proof.
  intros Hp. unfold spot. destruct e as [E|]; cbn [unit_encoding] in *; unfold counted; cbn [unit_encoding default_counting].
  - destruct (text_location PerUnit E inp Hinp p Hp) as (lo & H1 & H2 & H3 & (k & H4 & H5) & H6 & H7). exists lo.
    split; [exact H1|].
    assert (HB : lo_line_begin lo = TrSpec.line_start (InText E) inp p).
    { eapply line_begins_unique; [exact H3|]. now apply begins_last_line. }
    split; [exact HB|]. pose proof (newlines_le (firstn p inp)) as Hnl. rewrite firstn_length in Hnl.
    split; [rewrite H2; unfold as_unsigned; cbn [RepSpec.line_of]; apply N.mod_small; lia|].
    apply columns_units in H4. subst k.
    assert (HC : TrSpec.column_of (InText E) inp p = (1 + (lo_column_begin lo - lo_line_begin lo))%nat).
    { cbn [TrSpec.column_of]. f_equal.
      assert (HT : text_before inp p = firstn (lo_column_begin lo) inp).
      { unfold text_before. destruct H7 as [H7|(n & Hn & [H7|(_ & H7 & _)])]; [| |lia].
        - rewrite <- H7. destruct (nth_error inp (pred p)) as [c|] eqn:Ec; [|reflexivity]. destruct (nth_error inp p) as [c'|] eqn:Ec'; [|reflexivity].
          destruct (Nat.ltb_spec 0 p) as [L|L]; [|reflexivity]. destruct (N.eqb_spec c CR) as [->|_]; [|reflexivity].
          destruct (N.eqb_spec c' LF) as [->|_]; [|reflexivity]. exfalso.
          assert (p < length inp)%nat by (apply nth_error_Some; congruence).
          assert (Hnl2 : newline_at (skipn (p - 1) inp) 2).
          { right. replace (p - 1)%nat with (pred p) by lia. pose proof (nth_skipn inp (pred p) 0) as G0. pose proof (nth_skipn inp (pred p) 1) as G1.
            replace (pred p + 0)%nat with (pred p) in G0 by lia. replace (pred p + 1)%nat with p in G1 by lia. rewrite Ec in G0. rewrite Ec' in G1.
            destruct (skipn (pred p) inp) as [|x [|y r]]; [discriminate G0|discriminate G1|]. injection G0 as ->. injection G1 as ->. cbn. eauto. }
          pose proof (inside_newline_location PerUnit E inp p lo Hinp ltac:(assumption) L Hnl2 H1). lia.
        - assert (Hn2 : n = 2%nat /\ nth_error inp (lo_column_begin lo) = Some CR /\ nth_error inp (S (lo_column_begin lo)) = Some LF).
          { pose proof (nth_skipn inp (lo_column_begin lo) 0) as G0. pose proof (nth_skipn inp (lo_column_begin lo) 1) as G1.
            rewrite Nat.add_0_r in G0. rewrite Nat.add_1_r in G1.
            destruct H7 as [(-> & _)|(-> & r & Hr)]; [lia|]. rewrite <- G0, <- G1, Hr. auto. }
          destruct Hn2 as (-> & Hc & Hl). assert (p = S (lo_column_begin lo)) as -> by lia. cbn [pred]. rewrite Hc, Hl.
          replace (S (lo_column_begin lo) - 1)%nat with (lo_column_begin lo) by lia. reflexivity. }
      rewrite HT. assert (G : lo_line_begin lo = (lo_column_begin lo - length (last_line (firstn (lo_column_begin lo) inp)))%nat).
      { apply (line_begins_unique inp (lo_column_begin lo)); [|apply begins_last_line; lia].
        destruct H3 as (A & B & C). split; [lia|]. split; [exact B|]. intros i Hi. apply C. lia. }
      destruct (last_line_split (firstn (lo_column_begin lo) inp)) as (pre & Hpre & _).
      apply (f_equal (@length N)) in Hpre. rewrite app_length, firstn_length in Hpre. lia. }
    rewrite H5, HC. unfold as_unsigned. apply N.mod_small. lia.
  - rewrite (byte_location Default inp 16 Hinp ltac:(lia) p Hp). eexists. split; [reflexivity|].
    cbn [lo_line_begin lo_line_nr lo_column_nr TrSpec.line_start RepSpec.line_of TrSpec.column_of]. split; [reflexivity|].
    assert (p / 16 <= p)%nat by (apply Nat.div_le_upper_bound; lia). assert (p mod 16 < 16)%nat by (apply Nat.mod_upper_bound; lia).
    unfold as_unsigned. split; apply N.mod_small; lia.
Qed.

(** ** Places *)
Definition place (p : nat) : list N := format_dec 2 (N.of_nat (line_of p)) ++ str ":" ++ format_dec 3 (N.of_nat (column_of p)).
Lemma field_dec w n : n < 2 ^ 32 -> field w n (format_dec w n).
Proof. intros H. exists (dec_digits (dec_size n) n). split; [now apply dec_decimal|]. now rewrite dec_length. Qed.
Lemma last_line_length l : (length (last_line l) <= length l)%nat.
Proof. destruct (last_line_split l) as (pre & H & _). rewrite H at 2. rewrite app_length. lia. Qed.
Lemma line_bound p : (p <= length inp)%nat -> (line_of p <= 1 + length inp)%nat.
Proof.
  intros Hp. unfold RepSpec.line_of. destruct e.
  - pose proof (newlines_le (firstn p inp)). rewrite firstn_length in *. lia.
  - assert (p / 16 <= p)%nat by (apply Nat.div_le_upper_bound; lia). lia.
Qed.
Lemma column_bound p : (p <= length inp)%nat -> (column_of p <= 1 + length inp)%nat.
Proof.
  intros Hp. unfold TrSpec.column_of. destruct e.
  - pose proof (last_line_length (text_before inp p)) as H. assert (length (text_before inp p) <= length inp)%nat; [|lia].
    unfold text_before. destruct (nth_error inp (pred p)), (nth_error inp p); try destruct (_ && _); rewrite firstn_length; lia.
  - assert (p mod 16 <= p)%nat by (apply Nat.mod_le; lia). lia.
Qed.
Lemma place_ok p : (p <= length inp)%nat -> place_of e inp p (place p).
Proof.
  intros Hp. pose proof (line_bound p Hp). pose proof (column_bound p Hp).
  do 2 eexists. split; [reflexivity|]. split; apply field_dec; change (2 ^ 32) with 4294967296; lia.
Qed.
Lemma dec_size_7 n : n < 10000000 -> (dec_size n <= 7)%nat.
Proof. intros H. unfold dec_size. repeat match goal with |- context [n <? ?x] => destruct (N.ltb_spec n x); [lia|] end. lia. Qed.
Lemma place_found p lo : N.of_nat (length inp) < 9999999 -> (p <= length inp)%nat -> spot p lo -> place_text lo = Done (place p).
Proof.
  intros Hs Hp (_ & _ & H1 & H2). unfold place_text. rewrite H1, H2. fold (place p). unfold formatted.
  pose proof (line_bound p Hp). pose proof (column_bound p Hp).
  pose proof (dec_size_7 (N.of_nat (line_of p)) ltac:(lia)). pose proof (dec_size_7 (N.of_nat (column_of p)) ltac:(lia)).
  replace (length (place p) <=? 15)%nat with true; [reflexivity|]. symmetry. apply Nat.leb_le.
  unfold place, format_dec. rewrite !app_length, !repeat_length, !dec_length. change (length (str ":")) with 1%nat. lia.
Qed.

(** ** Anchors *)
Definition J (a : anchor) (L : list nat) : Prop :=
  (an_line_begin a <= length inp)%nat /\ (forall s, In s L -> (s <= length inp)%nat) /\
  (forall q, (q <= length inp)%nat -> (forall s, In s L -> (line_start s <= q)%nat) <-> (an_line_begin a <= q)%nat) /\
  (forall q, (an_line_begin a <= q <= length inp)%nat ->
     get_input_location (unit_encoding e) (default_counting e) inp q a =
     get_input_location (unit_encoding e) (default_counting e) inp q input_anchor).
Notation not_before := (not_before e inp).
Lemma J_ext a L L' : (forall s, In s L <-> In s L') -> J a L -> J a L'.
Proof.
  intros H (H1 & H2 & H3 & H4). split; [exact H1|]. split; [intros s Hs; apply H2, H, Hs|]. split; [|exact H4].
  intros q Hq. rewrite <- (H3 q Hq). split; intros G s Hs; apply G, H, Hs.
Qed.
Lemma not_before_ext L L' q : (forall s, In s L <-> In s L') -> not_before L q -> not_before L' q.
Proof. intros H (H1 & H2). split; [exact H1|]. intros s Hs. apply H2, H, Hs. Qed.
Lemma J_start : J input_anchor [].
Proof.
  split; [cbn; lia|]. split; [intros s []|]. split; [|auto]. intros q Hq. cbn. split; [lia|intros _ s []].
Qed.
Lemma line_start_le p : (line_start p <= p)%nat.
Proof. clear Hinp Hlen. unfold TrSpec.line_start. destruct e; [lia|]. rewrite Nat.mul_comm. apply Nat.mul_div_le. lia. Qed.
Lemma line_start_mono s p : (s <= length inp)%nat -> (p <= length inp)%nat -> (line_start s <= p)%nat -> (line_start s <= line_start p)%nat.
Proof.
  intros Hs Hp H. unfold TrSpec.line_start in *. destruct e.
  - destruct (begins_last_line inp s Hs) as (A & B & _). destruct (begins_last_line inp p Hp) as (A' & B' & C').
    set (ls := (s - length (last_line (firstn s inp)))%nat) in *. set (lp := (p - length (last_line (firstn p inp)))%nat) in *.
    destruct (Nat.le_gt_cases ls lp) as [L|L]; [exact L|]. exfalso. destruct B as [B|B]; [lia|]. apply (C' (ls - 1)%nat); [lia|exact B].
  - apply Nat.mul_le_mono_r. apply Nat.div_le_lower_bound; [lia|]. lia.
Qed.
Lemma J_push a L p lo : J a L -> not_before L p -> spot p lo -> J (anchor_of lo) (p :: L).
Proof.
  intros (H1 & H2 & H3 & H4) (Hp & HL) (Hs1 & Hs2 & _). pose proof (line_start_le p) as Hle.
  unfold J. cbn [anchor_of an_line_begin]. rewrite Hs2. split; [lia|]. split; [intros s [<-|Hs]; [exact Hp|now apply H2]|]. split.
  - intros q Hq. split; [intros G; apply G; now left|]. intros G s [<-|Hs]; [exact G|].
    pose proof (line_start_mono s p (H2 s Hs) Hp (HL s Hs)). lia.
  - intros q Hq. apply (from_anchor (unit_encoding e) (default_counting e) inp Hinp p q lo); try assumption; try lia.
    destruct e; cbn; lia.
Qed.
Lemma J_find a L q : J a L ->
  (not_before L q /\ exists lo, spot q lo /\ find_place e inp a q = Done lo) \/
  (~ not_before L q /\ find_place e inp a q = Asserts).
Proof.
  intros (H1 & H2 & H3 & H4). unfold find_place. destruct (Nat.le_gt_cases q (length inp)) as [L1|L1].
  - destruct (Nat.le_gt_cases (an_line_begin a) q) as [L2|L2].
    + left. split; [split; [exact L1|now apply H3]|]. destruct (spot_exists q L1) as (lo & Hlo). exists lo. split; [exact Hlo|].
      rewrite H4 by lia. destruct Hlo as (Hlo & _). unfold counted in Hlo. now rewrite Hlo.
    + right. split; [intros (_ & G); apply H3 in G; lia|]. rewrite before_anchor; [reflexivity|lia].
  - right. split; [intros (G & _); lia|]. rewrite (behind_end _ _ _ Hinp); [reflexivity|lia].
Qed.

(** ** Forests *)
Lemma tnode_ind' (P : tnode -> Prop) :
  (forall l, P (TLeaf l)) -> (forall name p kids c q, Forall P kids -> P (TProduction name p kids c q)) ->
  (forall p kids q, Forall P kids -> P (TChain p kids q)) ->
  (forall p kids c q, Forall P kids -> P (TRecovery p kids c q)) -> forall t, P t.
Proof.
  intros H1 H2 H3 H4. fix F 1. intros [l|name p kids c q|p kids q|p kids c q].
  - apply H1.
  - apply H2. induction kids as [|k kids IH]; constructor; [apply F|exact IH].
  - apply H3. induction kids as [|k kids IH]; constructor; [apply F|exact IH].
  - apply H4. induction kids as [|k kids IH]; constructor; [apply F|exact IH].
Qed.
Fixpoint all_on_time (L : list nat) (l : list tnode) : Prop :=
  match l with [] => True | x :: l' => on_time e inp L x /\ all_on_time (live x ++ L) l' end.

Hypothesis Hshort : N.of_nat (length inp) < 9999999.
Variables (token_name : tkind -> list N) (o : options).
Hypothesis Hplain : is_set o visualize_use_color = false.
Notation t_events := (t_events token_name e inp o).
Notation t_event := (t_event token_name e inp o).
Notation rows := (rows token_name e inp o place).
Notation row := (row o place).

Lemma t_events_app u l l' : t_events u (l ++ l') =
  bind (t_events u l) (fun r => omap (fun r' => (fst r ++ fst r', snd r')) (t_events (snd r) l')).
Proof.
  revert u. induction l as [|ev l IH]; intros u; cbn [app TrProofs.t_events].
  - cbn [bind fst snd app]. destruct (t_events u l') as [[t v]| |]; reflexivity.
  - destruct (t_event u ev) as [[t v]| |]; [|reflexivity|reflexivity]. cbn [bind fst snd]. rewrite IH.
    destruct (t_events v l) as [[t' v']| |]; [|reflexivity|reflexivity]. cbn [bind omap fst snd].
    destruct (t_events v' l') as [[t'' v'']| |]; [|reflexivity|reflexivity]. cbn [bind omap fst snd]. now rewrite app_assoc.
Qed.

Definition fresh (d : nat) : list N := if (0 <? d)%nat then [LF] else [].
Definition joint_of (k : prefix) : joint := match k with Event => Branch | Cancelled => Cancel | Finished => Finish end.
Lemma prefix_row d lo p k : (p <= length inp)%nat -> spot p lo ->
  t_prefix o d lo k = Done (fresh d ++ row d p (joint_of k) []).
Proof.
  intros Hp Hlo. unfold t_prefix. rewrite (place_found p lo Hshort Hp Hlo). cbn [omap bind].
  unfold t_joint. rewrite !(no_color o Hplain). unfold fresh, TrSpec.row. cbn [app]. do 2 f_equal.
  rewrite app_nil_r. do 2 f_equal. destruct d as [|d]; [reflexivity|]. cbn [Nat.ltb Nat.leb].
  replace (S d - 1)%nat with d by lia. rewrite app_nil_r. f_equal.
  unfold joint_text, unicode. destruct k; cbn [joint_of]; [reflexivity| |reflexivity]. now destruct (is_set o visualize_use_unicode).
Qed.

Lemma row_text d p j text : row d p j [] ++ text = row d p j text.
Proof. unfold TrSpec.row. destruct d; rewrite <- ?app_assoc, ?app_nil_r; cbn [app]; rewrite <- ?app_assoc; reflexivity. Qed.
Lemma heading_plain d name : t_heading o d name = heading o d name.
Proof.
  unfold t_heading, heading. rewrite !(no_color o Hplain). cbn [app]. unfold limit, max_depth.
  destruct (d =? _)%nat; [|now rewrite app_nil_r]. reflexivity.
Qed.
Lemma recovery_plain d : t_recovery o d = heading o d (str "error recovery").
Proof. unfold t_recovery, heading. rewrite !(no_color o Hplain). cbn [app]. reflexivity. Qed.
Lemma spaced_plain us : t_lexeme (lexemes_of e) us (set_flag o visualize_space) = spaced e o us.
Proof.
  unfold spaced. rewrite lexeme_output_eq, displayed_lexeme, reset_set. now rewrite (reset_plain o Hplain).
Qed.
Lemma error_plain k : t_error_message e o k = error_message e o k.
Proof. destruct k; cbn [t_error_message error_message]; rewrite ?lexeme_output_eq, ?displayed_lexeme, ?(reset_plain o Hplain); reflexivity. Qed.

Lemma event_line d a pr L ev p : position ev = Some p -> J a L ->
  (not_before L p /\ exists lo, spot p lo /\ t_event (d, a, pr) ev =
     match moves (d, a, pr) lo ev with
     | Some u' => Done (if (d <=? max_depth o)%nat && visible inp ev then fresh d ++ row d p (joint_of (kind ev)) (body token_name e inp o d ev) else [], u')
     | None => Asserts
     end) \/
  (~ not_before L p /\ t_event (d, a, pr) ev = Asserts).
Proof.
  intros Hev HJ. unfold TrProofs.t_event. rewrite Hev. cbn [fst snd].
  destruct (J_find a L p HJ) as [(Hn & lo & Hlo & Hf)|(Hn & Hf)]; [left|right]; (split; [exact Hn|]); rewrite Hf; [|reflexivity].
  exists lo. split; [exact Hlo|]. cbn [bind]. rewrite (prefix_row d lo p (kind ev) (proj1 Hn) Hlo). cbn [omap bind].
  rewrite <- app_assoc, row_text. destruct (_ && _); reflexivity.
Qed.

Definition on_lines (l : list (list N)) : list N := concat (map (cons LF) l).
Lemma on_lines_app l l' : on_lines (l ++ l') = on_lines l ++ on_lines l'.
Proof. unfold on_lines. now rewrite map_app, concat_app. Qed.
Definition traced (d : nat) (a : anchor) (pr : list anchor) (evs : list tevent) (ok : Prop) (L' : list nat) (text : list N) : Prop :=
  (ok /\ exists a', J a' L' /\ t_events (d, a, pr) evs = Done (text, (d, a', pr))) \/
  (~ ok /\ t_events (d, a, pr) evs = Asserts).

Lemma leaf_line d a pr L l : (1 <= d)%nat -> J a L ->
  traced d a pr [leaf_event l] (leaf_on_time e inp L l) L (on_lines (rows d (TLeaf l))).
Proof.
  intros Hd HJ. unfold traced.
  assert (Hf : fresh d = [LF]) by (unfold fresh; destruct d; [lia|reflexivity]).
  assert (G : forall p r, position (leaf_event l) = Some p -> leaf_on_time e inp L l = not_before L p ->
    (forall lo, moves (d, a, pr) lo (leaf_event l) = Some (d, a, pr)) ->
    kind (leaf_event l) = Event ->
    leaf_row token_name e inp o l = r ->
    (if visible inp (leaf_event l) then r = Some (p, body token_name e inp o d (leaf_event l)) else r = None) ->
    leaf_on_time e inp L l /\ (exists a', J a' L /\ t_events (d, a, pr) [leaf_event l] = Done (on_lines (rows d (TLeaf l)), (d, a', pr))) \/
    ~ leaf_on_time e inp L l /\ t_events (d, a, pr) [leaf_event l] = Asserts).
  { intros p r Hp -> Hm Hk <- Hr. cbn [TrProofs.t_events]. destruct (event_line d a pr L (leaf_event l) p Hp HJ) as [(Hn & lo & Hlo & He)|(Hn & He)];
      [left|right]; (split; [exact Hn|]); rewrite He; [|reflexivity]. exists a. split; [exact HJ|]. rewrite Hm, Hk, Hf. cbn [joint_of].
    cbn [bind omap fst snd TrSpec.rows]. rewrite app_nil_r. do 2 f_equal. unfold limit, max_depth.
    destruct (d <=? N.to_nat (vo_max_tree_depth o))%nat; [|now cbn [andb]]. cbn [andb].
    destruct (visible inp (leaf_event l)); rewrite Hr; [|reflexivity]. unfold on_lines. cbn [map concat app]. now rewrite app_nil_r. }
  destruct l as [k b e'|b e'|p k|name p|p s|p|p|p]; cbn [leaf_event] in *.
  - eapply G; try reflexivity. cbn [visible leaf_row body]. change (units_in inp (b, e')) with (lexeme_of inp b e').
    rewrite !(no_color o Hplain). cbn [app]. change (left_out k) with (ignore_if_empty k).
    destruct (lexeme_of inp b e') as [|u us] eqn:El; cbn [is_empty negb].
    + rewrite andb_true_r. destruct (ignore_if_empty k); cbn [negb]; [reflexivity|]. now rewrite app_nil_r.
    + rewrite andb_false_r. cbn [negb]. now rewrite spaced_plain.
  - eapply G; try reflexivity. cbn [visible leaf_row body]. change (units_in inp (b, e')) with (lexeme_of inp b e').
    rewrite !(no_color o Hplain), (reset_plain o Hplain). cbn [app]. rewrite app_nil_r.
    destruct (lexeme_of inp b e') as [|u us] eqn:El; cbn [is_empty negb]; [reflexivity|]. rewrite spaced_plain. rewrite app_assoc. reflexivity.
  - eapply G; try reflexivity. cbn [visible leaf_row body]. rewrite !(no_color o Hplain). cbn [app]. now rewrite app_nil_r, error_plain.
  - eapply G; try reflexivity. cbn [visible leaf_row body]. rewrite !(no_color o Hplain). reflexivity.
  - eapply G; try reflexivity. cbn [visible leaf_row body]. rewrite !(no_color o Hplain). cbn [app]. now rewrite app_nil_r.
  - left. split; [exact I|]. exists a. split; [exact HJ|]. cbn. now destruct (d <=? _)%nat.
  - left. split; [exact I|]. exists a. split; [exact HJ|]. cbn. now destruct (d <=? _)%nat.
  - left. split; [exact I|]. exists a. split; [exact HJ|]. cbn. now destruct (d <=? _)%nat.
Qed.

Lemma rows_deep d t : (limit o < d)%nat -> rows d t = [].
Proof. intros H. destruct t; cbn [TrSpec.rows]; (replace (d <=? limit o)%nat with false by (symmetry; apply Nat.leb_gt; lia)); reflexivity. Qed.
Lemma flat_map_deep d l : (limit o < d)%nat -> flat_map (rows d) l = [].
Proof. intros H. induction l as [|x l IH]; [reflexivity|]. cbn [flat_map]. now rewrite rows_deep, IH. Qed.

(** What is between the begin and the end of something. *)
Definition group_text (d p q : nat) (name : list N) (kids : list tnode) (j : joint) : list N :=
  (if (d <=? limit o)%nat then fresh d ++ row d p Branch (heading o d name) else []) ++
  (if (d <? limit o)%nat then on_lines (flat_map (rows (S d)) kids ++ [row (S d) q j []]) else []).
Lemma group_lines d p q name kids j : (1 <= d)%nat ->
  group_text d p q name kids j = on_lines (if (d <=? limit o)%nat then group o place d p q name (flat_map (rows (S d)) kids) j else []).
Proof.
  intros Hd. unfold group_text, group. assert (Hf : fresh d = [LF]) by (unfold fresh; destruct d; [lia|reflexivity]).
  destruct (Nat.leb_spec d (limit o)), (Nat.ltb_spec d (limit o)); try lia; rewrite ?Hf; cbn [app]; try reflexivity.
Qed.

Definition forest_traced (d : nat) (kids : list tnode) : Prop := forall a pr L, J a L ->
  traced d a pr (flat_map flattened kids) (all_on_time L kids) (flat_map live kids ++ L) (on_lines (flat_map (rows d) kids)).

Lemma group_traced d a pr L L1 L3 start finish name kids p q :
  position start = Some p -> position finish = Some q -> visible inp start = true -> visible inp finish = true -> kind start = Event ->
  body token_name e inp o d start = heading o d name -> body token_name e inp o (S d) finish = [] ->
  J a L -> forest_traced (S d) kids ->
  (forall lo, spot p lo -> not_before L p -> exists a1 pr1, moves (d, a, pr) lo start = Some (S d, a1, pr1) /\ J a1 L1 /\
     (forall a2 lo2, J a2 (flat_map live kids ++ L1) -> exists a3, moves (S d, a2, pr1) lo2 finish = Some (d, a3, pr) /\ J a3 L3)) ->
  traced d a pr (start :: flat_map flattened kids ++ [finish])
    (not_before L p /\ all_on_time L1 kids /\ not_before (flat_map live kids ++ L1) q) L3
    (group_text d p q name kids (joint_of (kind finish))).
Proof.
  intros Hp Hq Hv Hv' Hk Hb Hb' HJ HK HM. unfold traced. cbn [TrProofs.t_events].
  destruct (event_line d a pr L start p Hp HJ) as [(Hn & lo & Hlo & He)|(Hn & He)]; rewrite He; [|right; split; [tauto|reflexivity]].
  destruct (HM lo Hlo Hn) as (a1 & pr1 & Hm & HJ1 & HF). rewrite Hm, Hv, Hk, Hb, andb_true_r. cbn [joint_of bind fst snd].
  rewrite t_events_app. destruct (HK a1 pr1 L1 HJ1) as [(Ha & a2 & HJ2 & Ht)|(Ha & Ht)]; rewrite Ht; [|right; split; [tauto|reflexivity]].
  cbn [bind fst snd TrProofs.t_events].
  destruct (event_line (S d) a2 pr1 _ finish q Hq HJ2) as [(Hn' & lo' & Hlo' & He')|(Hn' & He')]; rewrite He'; [|right; split; [tauto|reflexivity]].
  left. split; [auto|]. destruct (HF a2 lo' HJ2) as (a3 & Hm3 & HJ3). exists a3. split; [exact HJ3|].
  rewrite Hm3, Hv', Hb', andb_true_r. cbn [bind omap fst snd]. rewrite app_nil_r. do 2 f_equal.
  unfold group_text. change (max_depth o) with (limit o).
  change (S d <=? limit o)%nat with (d <? limit o)%nat. f_equal.
  destruct (Nat.ltb_spec d (limit o)) as [Hl|Hl].
  - rewrite on_lines_app. f_equal. unfold on_lines. cbn [map concat]. now rewrite app_nil_r.
  - now rewrite flat_map_deep by lia.
Qed.

Lemma in_swap (p : nat) (A B : list nat) s : In s (A ++ p :: B) <-> In s (p :: A ++ B).
Proof. rewrite in_app_iff. cbn [In]. rewrite in_app_iff. tauto. Qed.
Lemma production_traced d a pr L name p kids c q : J a L -> forest_traced (S d) kids ->
  traced d a pr (flattened (TProduction name p kids c q)) (on_time e inp L (TProduction name p kids c q))
    (live (TProduction name p kids c q) ++ L) (group_text d p q name kids (if c then Cancel else Finish)).
Proof.
  intros HJ HK. cbn [flattened live].
  change (on_time e inp L (TProduction name p kids c q)) with
    (not_before L p /\ all_on_time (p :: L) kids /\ not_before (flat_map live kids ++ p :: L) q).
  replace (if c then Cancel else Finish) with (joint_of (kind (if c then PCancel q else PFinish q))) by now destruct c.
  apply group_traced; try reflexivity; try (now destruct c); try assumption; [apply heading_plain|].
  intros lo Hlo Hn. exists (anchor_of lo), (a :: pr). split; [reflexivity|]. split; [now apply (J_push a L)|].
  intros a2 lo2 HJ2. destruct c.
  - exists a. split; [reflexivity|exact HJ].
  - exists a2. split; [reflexivity|]. eapply J_ext; [|exact HJ2]. intros s. apply in_swap.
Qed.

Lemma tree_traced t : forall d a pr L, (1 <= d)%nat -> J a L ->
  traced d a pr (flattened t) (on_time e inp L t) (live t ++ L) (on_lines (rows d t)).
Proof.
  induction t as [l|name p kids c q IH|p kids q IH|p kids c q IH] using tnode_ind'; intros d a pr L Hd HJ.
  { exact (leaf_line d a pr L l Hd HJ). }
  all: assert (HK : forest_traced (S d) kids) by
    (clear HJ a pr L; intros a pr L HJ; revert a L HJ; induction IH as [|x kids Hx _ IHk]; intros a L HJ;
     [left; split; [exact I|]; exists a; split; [exact HJ|reflexivity]|];
     cbn [flat_map all_on_time]; unfold traced; rewrite t_events_app;
     destruct (Hx (S d) a pr L ltac:(lia) HJ) as [(Ho & a' & HJ' & Ht)|(Ho & Ht)]; rewrite Ht; [|right; split; [tauto|reflexivity]];
     cbn [bind fst snd]; destruct (IHk a' (live x ++ L) HJ') as [(Ho' & a'' & HJ'' & Ht')|(Ho' & Ht')]; rewrite Ht'; [|right; split; [tauto|reflexivity]];
     left; split; [auto|]; exists a''; cbn [bind omap fst snd]; rewrite on_lines_app; split; [|reflexivity];
     eapply J_ext; [|exact HJ'']; intros s; rewrite !in_app_iff; tauto).
  - cbn [TrSpec.rows]. rewrite <- (group_lines d p q name kids (if c then Cancel else Finish) Hd). now apply production_traced.
  - cbn [TrSpec.rows]. rewrite <- (group_lines d p q _ kids Finish Hd). cbn [flattened live].
    change (on_time e inp L (TChain p kids q)) with
      (not_before L p /\ all_on_time L kids /\ not_before (flat_map live kids ++ L) q).
    apply (group_traced d a pr L L _ (OStart p) (OFinish q)); try reflexivity; try assumption; [apply heading_plain|].
    intros lo Hlo Hn. exists a, pr. split; [reflexivity|]. split; [exact HJ|].
    intros a2 lo2 HJ2. exists a2. split; [reflexivity|exact HJ2].
  - cbn [TrSpec.rows]. rewrite <- (group_lines d p q _ kids (if c then Cancel else Finish) Hd). cbn [flattened live].
    change (on_time e inp L (TRecovery p kids c q)) with
      (not_before L p /\ all_on_time L kids /\ not_before (flat_map live kids ++ L) q).
    replace (if c then Cancel else Finish) with (joint_of (kind (if c then RCancel q else RFinish q))) by now destruct c.
    apply group_traced; try reflexivity; try (now destruct c); try assumption; [apply recovery_plain|].
    intros lo Hlo Hn. exists a, pr. split; [reflexivity|]. split; [exact HJ|].
    intros a2 lo2 HJ2. exists a2. split; [now destruct c|exact HJ2].
Qed.
Lemma forest_traced_all d kids : (1 <= d)%nat -> forest_traced d kids.
Proof.
  intros Hd a pr L HJ. revert a L HJ. induction kids as [|x kids IHk]; intros a L HJ.
  { left; split; [exact I|]; exists a; split; [exact HJ|reflexivity]. }
  cbn [flat_map all_on_time]; unfold traced; rewrite t_events_app.
  destruct (tree_traced x d a pr L Hd HJ) as [(Ho & a' & HJ' & Ht)|(Ho & Ht)]; rewrite Ht; [|right; split; [tauto|reflexivity]].
  cbn [bind fst snd]; destruct (IHk a' (live x ++ L) HJ') as [(Ho' & a'' & HJ'' & Ht')|(Ho' & Ht')]; rewrite Ht'; [|right; split; [tauto|reflexivity]].
  left; split; [auto|]; exists a''; cbn [bind omap fst snd]; rewrite on_lines_app; split; [|reflexivity].
  eapply J_ext; [|exact HJ'']; intros s; rewrite !in_app_iff; tauto.
Qed.

Lemma lines_on_lines r l : r ++ on_lines l ++ [LF] = lines (r :: l).
Proof.
  unfold lines, on_lines. cbn [map concat]. revert r. induction l as [|x l IH]; intros r; cbn [map concat app]; [now rewrite app_nil_r|].
  rewrite <- (app_assoc r [LF]). cbn [app]. do 2 f_equal. rewrite <- app_assoc. apply IH.
Qed.
Lemma whole_traced l t : whole l t -> vo_max_tree_depth o <= 32 ->
  (on_time e inp [] t /\ t_trace token_name e inp o l = Done (lines (rows 0 t))) \/
  (~ on_time e inp [] t /\ t_trace token_name e inp o l = Asserts).
Proof.
  intros [name p kids c q g g'] Hm. unfold t_trace.
  replace (max_tree_depth_limit <? max_depth o)%nat with false by (symmetry; apply Nat.ltb_ge; unfold max_depth, max_tree_depth_limit; lia).
  change (GStart g :: flattened (TProduction name p kids c q) ++ [if c then GCancel g' else GFinish g'])
    with ([GStart g] ++ flattened (TProduction name p kids c q) ++ [if c then GCancel g' else GFinish g']).
  rewrite !t_events_app. set (F := flattened (TProduction name p kids c q)).
  change (t_events (0%nat, input_anchor, []) [GStart g]) with (Done ([] : list N, (0%nat, input_anchor, [] : list anchor))).
  cbn [bind omap fst snd app]. rewrite t_events_app.
  destruct (production_traced 0 input_anchor [] [] name p kids c q J_start (forest_traced_all 1 kids (le_n 1))) as [(Ho & a' & _ & Ht)|(Ho & Ht)];
    fold F in Ht; rewrite Ht; [left|right]; (split; [exact Ho|]); [|reflexivity].
  cbn [bind omap fst snd].
  assert (HG : t_events (0%nat, a', []) [if c then GCancel g' else GFinish g'] = Done ([] : list N, (0%nat, a', [] : list anchor))) by now destruct c.
  rewrite HG. cbn [bind omap fst snd]. f_equal. rewrite app_nil_r. change [10] with [LF].
  cbn [TrSpec.rows]. unfold group_text, group. change (fresh 0) with (@nil N). cbn [Nat.leb app].
  destruct (0 <? limit o)%nat; rewrite <- ?app_assoc, ?lines_on_lines; [reflexivity|]. cbn [app].
  change [LF] with (on_lines [] ++ [LF]). apply lines_on_lines.
Qed.
End Input.
