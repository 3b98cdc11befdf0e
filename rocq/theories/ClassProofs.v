(** Proofs about character classes. *)
From Verif Require Import Prelude CodecModel CodecSpec CodecProofs SwarModel LitModel ClassModel ClassSpec.
Open Scope N_scope.

(** ** The compressed set matches exactly the members. *)
Lemma ascii_codes_in c : In c ascii_codes <-> c < 128.
Proof.
  unfold ascii_codes. rewrite in_map_iff. split.
  - intros (i & <- & Hi). apply in_seq in Hi. lia.
  - intros H. exists (N.to_nat c). split; [lia|]. apply in_seq. lia.
Qed.

Definition in_ranges (rs : list (N * N)) (c : N) : Prop := exists r, In r rs /\ fst r <= c <= snd r.

(** Members are increasing: each code of the list is larger than the previous ones. *)
Fixpoint increasing (b : N) (cs : list N) : Prop :=
  match cs with [] => True | c :: cs' => b <= c /\ increasing (c + 1) cs' end.

Lemma ranges_from_spec cs : forall cur,
  match cur with
  | None => increasing 0 cs
  | Some (lo, last) => lo <= last /\ increasing (last + 1) cs
  end ->
  forall c, in_ranges (ranges_from cs cur) c <->
    In c cs \/ match cur with Some (lo, last) => lo <= c <= last | None => False end.
Proof.
  induction cs as [|x cs IH]; intros cur Hc c; cbn [ranges_from].
  - destruct cur as [[lo last]|]; unfold in_ranges; cbn.
    + split; [intros (r & [<-|[]] & H); auto | intros [[]|H]; exists (lo, last); auto].
    + split; [intros (r & [] & _) | intros [[]|[]]].
  - destruct cur as [[lo last]|].
    + destruct Hc as (H1 & H2 & H3).
      destruct (last + 1 =? x) eqn:E.
      * rewrite IH by (cbn; split; [lia|exact H3]). cbn [In].
        split; [intros [H|H]; [auto|]|intros [[H|H]|H]; auto; right; lia].
        destruct (N.eq_dec c x); [subst; auto|]. right. lia.
      * unfold in_ranges. cbn [In]. split.
        -- intros (r & [<-|Hr] & Hb); [right; exact Hb|].
           assert (Hi : in_ranges (ranges_from cs (Some (x, x))) c) by (exists r; auto).
           apply IH in Hi; [|split; [lia|exact H3]]. destruct Hi as [Hi|Hi]; [auto|].
           left. left. lia.
        -- intros [[H|H]|H].
           ++ assert (Hi : in_ranges (ranges_from cs (Some (x, x))) c).
              { apply IH; [split; [lia|exact H3]|]. right. lia. }
              destruct Hi as (r & Hr & Hb). exists r. auto.
           ++ assert (Hi : in_ranges (ranges_from cs (Some (x, x))) c).
              { apply IH; [split; [lia|exact H3]|]. auto. }
              destruct Hi as (r & Hr & Hb). exists r. auto.
           ++ exists (lo, last). cbn. auto.
    + destruct Hc as (H1 & H2).
      rewrite IH by (split; [lia|exact H2]). cbn [In].
      split; [intros [H|H]; [auto|left; left; lia]|intros [[H|H]|[]]; auto; right; lia].
Qed.

Lemma increasing_filter s cs : forall b, increasing b cs -> increasing b (filter s cs).
Proof.
  assert (mono : forall l b b', b' <= b -> increasing b l -> increasing b' l).
  { intros [|x l] b b' Hb H; cbn in *; [auto|]. destruct H. split; [lia|auto]. }
  induction cs as [|x cs IH]; intros b H; cbn in *; [auto|]. destruct H as (H1 & H2).
  destruct (s x); cbn; [split; [auto|now apply IH]|].
  apply IH in H2. eapply mono; [|exact H2]. lia.
Qed.

Lemma ascii_codes_increasing : increasing 0 ascii_codes.
Proof. vm_compute. repeat split; discriminate. Qed.

Lemma visit_range_spec s c : in_ranges (visit_range s) c <-> c < 128 /\ s c = true.
Proof.
  unfold visit_range, visit.
  rewrite ranges_from_spec by (apply increasing_filter, ascii_codes_increasing).
  rewrite filter_In, ascii_codes_in. tauto.
Qed.

Lemma matcher_spec s c : matcher (compress s) c = (c <? 128) && s c.
Proof.
  apply Bool.eq_true_iff_eq. unfold matcher, compress. cbn [c_ranges c_singles].
  rewrite orb_true_iff, andb_true_iff, N.ltb_lt, <- visit_range_spec, !existsb_exists.
  unfold in_ranges. split.
  - intros [(r & Hr & Hb)|(x & Hx & Hb)].
    + apply filter_In in Hr. exists r. split; [tauto|]. lia.
    + apply in_map_iff in Hx. destruct Hx as (r & <- & Hr). apply filter_In in Hr.
      exists r. split; [tauto|]. lia.
  - intros (r & Hr & Hb). destruct (fst r =? snd r) eqn:E.
    + right. exists (fst r). split; [|lia]. apply in_map_iff. exists r. split; [reflexivity|].
      apply filter_In. auto.
    + left. exists r. split; [|lia]. apply filter_In. split; [auto|now rewrite E].
Qed.

(** ** What a class type stands for *)
Definition mem (k : cclass) (c : N) : bool := if c <? 128 then class_ascii k c else match_cp k c.

Fixpoint hgood (k : cclass) : Prop :=
  match k with
  | KClass ascii (Some p) => forall c, c < 128 -> p c = true -> ascii c = true
  | KClass _ None => True
  | KCode _ => True
  | KAlt l | KAnd l => (fix all l := match l with [] => True | k :: l' => hgood k /\ all l' end) l
  | KComp c => hgood c
  | KMinus s m => hgood s /\ hgood m
  end.

Lemma hgood_all l :
  (fix all l := match l with [] => True | k :: l' => hgood k /\ all l' end) l <-> Forall hgood l.
Proof.
  induction l as [|k l IH]; [split; auto|]. rewrite IH. split; intros H.
  - destruct H. constructor; auto.
  - now inversion H.
Qed.

Section Ind.
Variable P : cclass -> Prop.
Hypothesis H1 : forall a p, P (KClass a p).
Hypothesis H2 : forall c, P (KCode c).
Hypothesis H3 : forall l, Forall P l -> P (KAlt l).
Hypothesis H4 : forall c, P c -> P (KComp c).
Hypothesis H5 : forall s m, P s -> P m -> P (KMinus s m).
Hypothesis H6 : forall l, Forall P l -> P (KAnd l).
Fixpoint cclass_nested_ind (k : cclass) : P k :=
  match k with
  | KClass a p => H1 a p
  | KCode c => H2 c
  | KAlt l => H3 l ((fix go l : Forall P l := match l with [] => Forall_nil _
                      | k :: l' => Forall_cons _ (cclass_nested_ind k) (go l') end) l)
  | KComp c => H4 c (cclass_nested_ind c)
  | KMinus s m => H5 s m (cclass_nested_ind s) (cclass_nested_ind m)
  | KAnd l => H6 l ((fix go l : Forall P l := match l with [] => Forall_nil _
                      | k :: l' => Forall_cons _ (cclass_nested_ind k) (go l') end) l)
  end.
End Ind.

Lemma false_type_false k : match_cp_false k = true -> forall c, match_cp k c = false.
Proof.
  induction k as [a [p|]|c0|l IH|k IH|s m IHs IHm|l IH] using cclass_nested_ind; cbn;
    intros H c; try discriminate; auto.
  - now rewrite H.
  - now rewrite H.
  - now rewrite H.
  - now rewrite H.
Qed.

Lemma existsb_false_type l c : forallb match_cp_false l = true ->
  existsb (fun k => match_cp k c) l = false.
Proof.
  induction l as [|k l IH]; cbn; [auto|]. rewrite andb_true_iff. intros (H & Hl).
  now rewrite (false_type_false _ H), IH.
Qed.

Lemma forallb_false_type l c : l <> [] -> forallb match_cp_false l = true ->
  forallb (fun k => match_cp k c) l = false.
Proof.
  destruct l as [|k l]; [congruence|]. intros _. cbn. rewrite andb_true_iff. intros (H & Hl).
  now rewrite (false_type_false _ H).
Qed.

(** Non-empty intersections, hereditarily. *)
Fixpoint nonempty (k : cclass) : Prop :=
  match k with
  | KClass _ _ | KCode _ => True
  | KAlt l => (fix all l := match l with [] => True | k :: l' => nonempty k /\ all l' end) l
  | KAnd l => l <> [] /\ (fix all l := match l with [] => True | k :: l' => nonempty k /\ all l' end) l
  | KComp c => nonempty c
  | KMinus s m => nonempty s /\ nonempty m
  end.
Lemma nonempty_all l :
  (fix all l := match l with [] => True | k :: l' => nonempty k /\ all l' end) l <-> Forall nonempty l.
Proof.
  induction l as [|k l IH]; [split; auto|]. rewrite IH. split; intros H.
  - destruct H. constructor; auto.
  - now inversion H.
Qed.

(** An ASCII character the table rejects is not accepted by the code point test. *)
Lemma cp_implies_ascii k : hgood k -> nonempty k -> forall c, c < 128 -> match_cp k c = true ->
  class_ascii k c = true.
Proof.
  induction k as [a [p|]|c0|l IH|k IH|s m IHs IHm|l IH] using cclass_nested_ind;
    cbn [hgood nonempty match_cp class_ascii]; intros Hg Hn c Hc Hm; try discriminate; auto.
  - destruct (c0 <=? 0x7F) eqn:E; [discriminate|]. lia.
  - destruct (forallb match_cp_false l); [discriminate|].
    apply hgood_all in Hg. apply nonempty_all in Hn.
    apply existsb_exists in Hm. destruct Hm as (k & Hk & Hm).
    rewrite Forall_forall in IH, Hg, Hn.
    apply existsb_exists. exists k. split; [auto|]. apply IH; auto.
  - destruct (c <=? 0x7F) eqn:E; [discriminate|]. lia.
  - destruct (match_cp_false s); [discriminate|]. destruct (match_cp_false m); lia.
  - destruct (forallb match_cp_false l); [discriminate|].
    destruct Hn as (Hn0 & Hn).
    apply hgood_all in Hg. apply nonempty_all in Hn.
    rewrite forallb_forall in Hm. rewrite Forall_forall in IH, Hg, Hn.
    apply forallb_forall. intros k Hk. apply IH; auto.
Qed.

Lemma mem_alt l c : mem (KAlt l) c = existsb (fun k => mem k c) l.
Proof.
  unfold mem. cbn [class_ascii match_cp]. destruct (c <? 128) eqn:E; [reflexivity|].
  destruct (forallb match_cp_false l) eqn:F; [|reflexivity].
  symmetry. now apply existsb_false_type.
Qed.
Lemma mem_and l c : l <> [] -> mem (KAnd l) c = forallb (fun k => mem k c) l.
Proof.
  intros Hl. unfold mem. cbn [class_ascii match_cp]. destruct (c <? 128) eqn:E; [reflexivity|].
  destruct (forallb match_cp_false l) eqn:F; [|reflexivity].
  symmetry. now apply forallb_false_type.
Qed.
Lemma mem_comp k c : mem (KComp k) c = negb (mem k c).
Proof.
  unfold mem. cbn [class_ascii match_cp]. unfold set_remove, set_range, in_range.
  destruct (c <? 128) eqn:E.
  - replace ((0 <=? c) && (c <=? 127)) with true by lia. reflexivity.
  - replace (c <=? 0x7F) with false by lia.
    destruct (match_cp_false k) eqn:F; [|reflexivity]. now rewrite (false_type_false _ F).
Qed.
Lemma mem_minus s m c : mem (KMinus s m) c = mem s c && negb (mem m c).
Proof.
  unfold mem. cbn [class_ascii match_cp]. unfold set_remove.
  destruct (c <? 128) eqn:E; [reflexivity|].
  replace (0x7F <? c) with true by lia.
  destruct (match_cp_false s) eqn:F; [now rewrite (false_type_false _ F)|].
  destruct (match_cp_false m) eqn:G; [|reflexivity].
  rewrite (false_type_false _ G). now rewrite andb_true_r.
Qed.
Lemma mem_code x c : mem (KCode x) c = (c =? x).
Proof.
  unfold mem. cbn [class_ascii match_cp].
  destruct (c <? 128) eqn:E; destruct (x <=? 0x7F) eqn:F; cbn; try reflexivity; lia.
Qed.

(** ** The operators *)
Lemma mem_op_alt a b c : mem (op_alt a b) c = mem a c || mem b c.
Proof.
  destruct a, b; cbn [op_alt]; rewrite ?mem_alt; cbn [existsb]; rewrite ?existsb_app; cbn [existsb];
    rewrite ?orb_false_r, ?mem_alt; reflexivity.
Qed.
Lemma mem_op_neg a c : mem (op_neg a) c = negb (mem a c).
Proof. destruct a; cbn [op_neg]; rewrite ?mem_comp; rewrite ?negb_involutive; reflexivity. Qed.
Lemma mem_op_minus a : forall b c, mem (op_minus a b) c = mem a c && negb (mem b c).
Proof.
  induction a as [a p|c0|l|k|s IH m _|l] ; intros b c; cbn [op_minus]; rewrite ?mem_minus; try reflexivity.
  rewrite IH, mem_alt. cbn [existsb]. rewrite orb_false_r, negb_orb, andb_assoc. reflexivity.
Qed.
Lemma mem_op_and a b c : nonempty a -> nonempty b -> mem (op_and a b) c = mem a c && mem b c.
Proof.
  intros Ha Hb.
  assert (Happ : forall l m : list cclass, l <> [] -> l ++ m <> []) by (intros [|] ?; cbn; congruence).
  destruct a; destruct b; cbn [op_and]; try (destruct Ha as (Ha & _)); try (destruct Hb as (Hb & _));
    rewrite ?mem_and by (auto; discriminate);
    cbn [forallb]; rewrite ?forallb_app; cbn [forallb]; rewrite ?andb_true_r; reflexivity.
Qed.

Lemma nonempty_alt l : nonempty (KAlt l) <-> Forall nonempty l.
Proof. apply nonempty_all. Qed.
Lemma nonempty_and l : nonempty (KAnd l) <-> l <> [] /\ Forall nonempty l.
Proof. cbn [nonempty]. now rewrite nonempty_all. Qed.
Lemma hgood_alt l : hgood (KAlt l) <-> Forall hgood l.
Proof. apply hgood_all. Qed.
Lemma hgood_and l : hgood (KAnd l) <-> Forall hgood l.
Proof. apply hgood_all. Qed.
Lemma nonempty_op_alt a b : nonempty a -> nonempty b -> nonempty (op_alt a b).
Proof.
  intros Ha Hb.
  destruct a; destruct b; cbn [op_alt]; apply nonempty_alt; try apply nonempty_alt in Ha;
    try apply nonempty_alt in Hb; try (apply Forall_app; split); auto.
Qed.
Lemma hgood_op_alt a b : hgood a -> hgood b -> hgood (op_alt a b).
Proof.
  intros Ha Hb.
  destruct a; destruct b; cbn [op_alt]; apply hgood_alt;
    repeat match goal with H : hgood (KAlt _) |- _ => apply (proj1 (hgood_alt _)) in H end; try (apply Forall_app; split); auto.
Qed.
Lemma nonempty_op_and a b : nonempty a -> nonempty b -> nonempty (op_and a b).
Proof.
  intros Ha Hb.
  assert (Happ : forall l m : list cclass, l <> [] -> l ++ m <> []) by (intros [|] ?; cbn; congruence).
  destruct a; destruct b; cbn [op_and]; apply nonempty_and; try (apply nonempty_and in Ha; destruct Ha);
    try (apply nonempty_and in Hb; destruct Hb); (split; [try discriminate; auto|]);
    try (apply Forall_app; split); auto.
Qed.
Lemma hgood_op_and a b : hgood a -> hgood b -> hgood (op_and a b).
Proof.
  intros Ha Hb.
  destruct a; destruct b; cbn [op_and]; apply hgood_and;
    repeat match goal with H : hgood (KAnd _) |- _ => apply (proj1 (hgood_and _)) in H end; try (apply Forall_app; split); auto.
Qed.
Lemma nonempty_op_minus a : forall b, nonempty a -> nonempty b -> nonempty (op_minus a b).
Proof.
  induction a as [a p|c0|l|k|s IH m _|l]; intros b Ha Hb; cbn [op_minus nonempty] in *; auto.
  destruct Ha. apply IH; [auto|]. cbn. auto.
Qed.
Lemma hgood_op_minus a : forall b, hgood a -> hgood b -> hgood (op_minus a b).
Proof.
  induction a as [a p|c0|l|k|s IH m _|l]; intros b Ha Hb; cbn [op_minus hgood] in *; auto.
  destruct Ha. apply IH; [auto|]. cbn. auto.
Qed.

Lemma build_nonempty e : nonempty (build e).
Proof.
  induction e; cbn [build].
  - exact I.
  - exact I.
  - now apply nonempty_op_alt.
  - destruct (build e); cbn in *; auto.
  - now apply nonempty_op_minus.
  - now apply nonempty_op_and.
Qed.
Lemma build_hgood e : sane e -> hgood (build e).
Proof.
  induction e; cbn [build sane]; intros H.
  - exact H.
  - exact I.
  - apply hgood_op_alt; tauto.
  - specialize (IHe H). destruct (build e); cbn in *; auto.
  - apply hgood_op_minus; tauto.
  - apply hgood_op_and; tauto.
Qed.

Lemma build_denotes e c : mem (build e) c = true <-> denotes e c.
Proof.
  induction e; cbn [build denotes].
  - unfold mem. cbn [class_ascii match_cp]. destruct (c <? 128); [reflexivity|].
    destruct cp; [reflexivity|]. split; [discriminate|contradiction].
  - rewrite mem_code. apply N.eqb_eq.
  - rewrite mem_op_alt, orb_true_iff. tauto.
  - rewrite mem_op_neg, negb_true_iff, <- not_true_iff_false. tauto.
  - rewrite mem_op_minus, andb_true_iff, negb_true_iff, <- not_true_iff_false. tauto.
  - rewrite mem_op_and by apply build_nonempty. rewrite andb_true_iff. tauto.
Qed.

(** ** Reading *)
Lemma ascii_unit_reads E c r : c < 128 -> reads E (c :: r) c 1.
Proof.
  intros Hc. destruct E as [|e]; cbn [reads].
  - split; [reflexivity|]. exists r. split; [reflexivity|lia].
  - destruct e; unfold parse_code_point; cbn [peek].
    + replace (c =? eof Ascii) with false by (cbn; lia). replace (c <=? 0x7F) with true by lia. reflexivity.
    + assert (H : N.ldiff c 0x7F = 0).
      { change 0x7F with (N.ones 7). rewrite ldiff_ones_div.
        rewrite N.div_small by (cbn; lia). reflexivity. }
      rewrite H. reflexivity.
    + replace (c =? eof Utf16) with false by (cbn; lia).
      assert (H : N.ldiff c 0x3FF = 0).
      { change 0x3FF with (N.ones 10). rewrite ldiff_ones_div.
        rewrite N.div_small by (cbn; lia). reflexivity. }
      rewrite H. reflexivity.
    + replace (c =? eof Utf32) with false by (cbn; lia).
      replace (0x10FFFF <? c) with false by lia.
      replace ((0xD800 <=? c) && (c <=? 0xDFFF)) with false by lia. reflexivity.
Qed.

Lemma reads_fun E rest c n c' n' : reads E rest c n -> reads E rest c' n' -> c = c' /\ n = n'.
Proof.
  destruct E as [|e]; cbn [reads].
  - intros (-> & r & -> & _) (-> & r' & H & _). now injection H as -> ->.
  - intros -> H. now injection H.
Qed.

(** Reading an ASCII code point means its unit is at the front (overlong UTF-8
    forms are errors). *)
Lemma reads_ascii E rest c n : Forall (fun u => u < lbound E) rest ->
  reads E rest c n -> c < 128 -> exists r, rest = c :: r /\ n = 1%nat.
Proof.
  intros Hb H Hc. destruct E as [|e]; cbn [reads] in H.
  - destruct H as (-> & r & -> & _). eauto.
  - assert (Hne : rest <> []).
    { intros ->. destruct e; vm_compute in H; discriminate. }
    destruct rest as [|u r]; [congruence|].
    destruct (N.lt_ge_cases u 128) as [Hu|Hu].
    + destruct (reads_fun (Enc e) (u :: r) c n u 1 H (ascii_unit_reads (Enc e) u r Hu)) as (-> & ->).
      eauto.
    + exfalso. destruct e.
      * apply (proj1 (proj2 (utf32_ascii_char (u :: r) c n))) in H.
        destruct H as (_ & r' & E' & Hle). injection E' as -> ->. lia.
      * pose proof (utf8_characterised (u :: r)) as Hu8.
        destruct Hu8 as (Hs & _); [exact Hb|].
        destruct (Hs c n H) as (Hn & Hsc & Hv & Hmin).
        assert (Hv1 : utf8_value [c] = Some c) by (cbn; now replace (c <? 0x80) with true by lia).
        specialize (Hmin _ Hv1).
        destruct n as [|[|n]].
        -- cbn in Hv. discriminate.
        -- cbn in Hv. destruct (u <? 0x80) eqn:E'; [lia|discriminate].
        -- cbn [firstn length] in Hmin. destruct r as [|v r]; cbn [firstn length] in *; lia.
      * destruct (utf16_sound (u :: r) c n Hb H) as (Hn & cp' & (Hsc & Hw) & Heq).
        destruct n as [|[|[|n]]]; cbn [firstn] in Hw.
        -- contradiction.
        -- destruct Hw as (Hw1 & ->). destruct ((0x10000 <=? u) && negb (N.odd (u / 0x10000))) eqn:E'; lia.
        -- destruct r as [|v r]; [cbn in Hn; lia|].
           destruct Hw as (Hh & Hl & ->). unfold between in *.
           destruct (_ && _) eqn:E' in Heq; [|lia].
           assert (0x10000 + (u - 0xD800) * 1024 + (v - 0xDC00) - 0x10000 < 128) by lia.
           assert (Hd : (0x10000 + (u - 0xD800) * 1024 + (v - 0xDC00)) / 0x10000 = 1) by lia.
           rewrite Hd in E'. rewrite andb_false_r in E'. discriminate.
        -- destruct r as [|v [|w r]]; cbn in Hn, Hw; try lia; contradiction.
      * apply (proj1 (utf32_ascii_char (u :: r) c n)) in H.
        destruct H as (_ & r' & E' & Hle). injection E' as -> ->. lia.
Qed.

Lemma class_try_spec E k rest n :
  Forall (fun u => u < lbound E) rest -> hgood k -> nonempty k ->
  class_try E k rest = Some n <-> exists c, reads E rest c n /\ mem k c = true.
Proof.
  intros Hb Hg Hn. unfold class_try. rewrite matcher_spec.
  assert (Heof : 128 <= leof E) by (destruct E as [|[]]; vm_compute; discriminate).
  destruct ((lpeek E rest <? 128) && class_ascii k (lpeek E rest)) eqn:Ea.
  - apply andb_true_iff in Ea. destruct Ea as (Hlt & Ha).
    destruct rest as [|u r]; cbn [lpeek] in *; [lia|].
    pose proof (ascii_unit_reads E u r ltac:(lia)) as Hr.
    split.
    + intros [= <-]. exists u. split; [exact Hr|]. unfold mem. now rewrite Hlt.
    + intros (c & H & _). destruct (reads_fun _ _ _ _ _ _ H Hr) as (_ & ->). reflexivity.
  - (* the table did not match *)
    assert (Hno : forall c m, reads E rest c m -> mem k c = true -> 128 <= c /\ match_cp k c = true).
    { intros c m Hr Hm. unfold mem in Hm. destruct (c <? 128) eqn:Ec; [|split; [lia|exact Hm]].
      destruct (reads_ascii E rest c m Hb Hr ltac:(lia)) as (r & -> & ->).
      cbn [lpeek] in Ea. rewrite Ec, Hm in Ea. discriminate. }
    assert (Hyes : forall c m, reads E rest c m -> match_cp k c = true -> mem k c = true).
    { intros c m Hr Hm. unfold mem. destruct (c <? 128) eqn:Ec; [|exact Hm].
      apply cp_implies_ascii; auto. lia. }
    destruct (match_cp_false k) eqn:Ef.
    + split; [discriminate|]. intros (c & Hr & Hm). destruct (Hno c n Hr Hm) as (_ & H).
      rewrite (false_type_false k Ef) in H. discriminate.
    + destruct E as [|e].
      * destruct rest as [|u r]; cbn [lpeek].
        -- rewrite N.eqb_refl. split; [discriminate|]. intros (c & (_ & r & Hr & _) & _). discriminate.
        -- assert (Hu : u < 0x100) by (now inversion Hb).
           replace (u =? leof Default) with false by (cbn [leof]; lia).
           assert (Hr : reads Default (u :: r) u 1) by (split; [reflexivity|]; exists r; auto).
           destruct (match_cp k u) eqn:Em.
           ++ split.
              ** intros [= <-]. exists u. split; [exact Hr|]. eapply Hyes; eauto.
              ** intros (c & H & _). destruct (reads_fun _ _ _ _ _ _ H Hr) as (_ & ->). reflexivity.
           ++ split; [discriminate|]. intros (c & H & Hm).
              destruct (reads_fun _ _ _ _ _ _ H Hr) as (-> & ->).
              destruct (Hno u 1%nat Hr Hm) as (_ & H'). congruence.
      * destruct (parse_code_point e rest) as [cp err end_] eqn:Ep. cbn [cr_error cr_cp cr_end].
        destruct err.
        1: { assert (Hr : reads (Enc e) rest cp end_) by exact Ep.
             destruct (match_cp k cp) eqn:Em.
             - split.
               + intros [= <-]. exists cp. split; [exact Hr|]. eapply Hyes; eauto.
               + intros (c & H & _). destruct (reads_fun _ _ _ _ _ _ H Hr) as (_ & ->). reflexivity.
             - split; [discriminate|]. intros (c & H & Hm).
               destruct (reads_fun _ _ _ _ _ _ H Hr) as (-> & ->).
               destruct (Hno _ _ Hr Hm) as (_ & H'). congruence. }
        all: split; [discriminate|]; intros (c & H & _); cbn [reads] in H; rewrite Ep in H; discriminate.
Qed.

Lemma class_matches E e rest n :
  Forall (fun u => u < lbound E) rest -> sane e ->
  class_try E (build e) rest = Some n <-> exists c, reads E rest c n /\ denotes e c.
Proof.
  intros Hb Hs. rewrite class_try_spec by (auto using build_hgood, build_nonempty).
  split; intros (c & Hr & H); exists c; (split; [exact Hr|]); now apply build_denotes.
Qed.

(** The algebra, on the level of matching. *)
Lemma class_algebra E a b rest :
  Forall (fun u => u < lbound E) rest -> sane a -> sane b ->
  (forall n, class_try E (build (EOr a b)) rest = Some n <->
     class_try E (build a) rest = Some n \/ class_try E (build b) rest = Some n) /\
  (forall n, class_try E (build (EAnd a b)) rest = Some n <->
     class_try E (build a) rest = Some n /\ class_try E (build b) rest = Some n) /\
  (forall n, class_try E (build (EMinus a b)) rest = Some n <->
     class_try E (build a) rest = Some n /\ class_try E (build b) rest = None) /\
  (forall n, class_try E (build (ENot a)) rest = Some n <->
     (exists c, reads E rest c n) /\ class_try E (build a) rest = None).
Proof.
  intros Hb Ha Hs.
  pose proof (fun n => class_matches E (EOr a b) rest n Hb (conj Ha Hs)) as Hor.
  pose proof (fun n => class_matches E (EAnd a b) rest n Hb (conj Ha Hs)) as Hand.
  pose proof (fun n => class_matches E (EMinus a b) rest n Hb (conj Ha Hs)) as Hmin.
  pose proof (fun n => class_matches E (ENot a) rest n Hb Ha) as Hnot.
  pose proof (fun n => class_matches E a rest n Hb Ha) as HA.
  pose proof (fun n => class_matches E b rest n Hb Hs) as HB.
  cbn [denotes] in *.
  assert (Hnone : forall e, (forall n, class_try E (build e) rest = Some n <-> exists c, reads E rest c n /\ denotes e c) ->
     forall c n, reads E rest c n -> (class_try E (build e) rest = None <-> ~ denotes e c)).
  { intros e He c n Hr. split.
    - intros Hno Hd. assert (class_try E (build e) rest = Some n) by (apply He; eauto). congruence.
    - intros Hd. destruct (class_try E (build e) rest) as [m|] eqn:Et; [|reflexivity].
      destruct (proj1 (He m) eq_refl) as (c' & Hr' & Hd').
      destruct (reads_fun _ _ _ _ _ _ Hr Hr') as (-> & _). contradiction. }
  split; [|split; [|split]]; intros n.
  - rewrite Hor, HA, HB. split.
    + intros (c & Hr & [H|H]); [left|right]; eauto.
    + intros [(c & Hr & H)|(c & Hr & H)]; exists c; auto.
  - rewrite Hand, HA, HB. split.
    + intros (c & Hr & H1 & H2). split; eauto.
    + intros ((c & Hr & H1) & (c' & Hr' & H2)).
      destruct (reads_fun _ _ _ _ _ _ Hr Hr') as (-> & _). eauto.
  - rewrite Hmin, HA. split.
    + intros (c & Hr & H1 & H2). split; [eauto|]. apply (Hnone b HB c n Hr). exact H2.
    + intros ((c & Hr & H1) & H2). exists c. split; [auto|]. split; [auto|].
      apply (Hnone b HB c n Hr). exact H2.
  - rewrite Hnot. split.
    + intros (c & Hr & H1). split; [eauto|]. apply (Hnone a HA c n Hr). exact H1.
    + intros ((c & Hr) & H2). exists c. split; [auto|]. apply (Hnone a HA c n Hr). exact H2.
Qed.

(** What is read is what the text encodes, for every encoding but UTF-16 (C03). *)
Lemma reads_encodes E rest c n : E <> Enc Utf16 -> Forall (fun u => u < lbound E) rest ->
  (reads E rest c n <-> encodes E rest c n).
Proof.
  intros HE Hb. unfold encodes. destruct E as [|[]]; cbn [reads].
  - split.
    + intros (-> & r & -> & Hc). cbn. split; [lia|]. auto.
    + intros (Hn & Hc & H). destruct rest as [|u r]; [now rewrite firstn_nil in H|].
      destruct n as [|n]; [discriminate|]. cbn [firstn] in H. injection H as -> H.
      split; [|exists r; auto].
      destruct n; [reflexivity|]. destruct r as [|v r]; [cbn in Hn; lia|discriminate].
  - rewrite (proj1 (proj2 (utf32_ascii_char rest c n))). split.
    + intros (-> & r & -> & H). cbn. split; [lia|]. split; [lia|reflexivity].
    + intros (Hn & Hc & H). destruct rest as [|u r]; [now rewrite firstn_nil in H|].
      destruct n as [|n]; [discriminate|]. cbn [firstn] in H. injection H as -> H.
      split; [|exists r; split; [reflexivity|lia]].
      destruct n; [reflexivity|]. destruct r as [|v r]; [cbn in Hn; lia|discriminate].
  - pose proof (utf8_characterised rest) as (H1 & H2 & _); [exact Hb|]. split.
    + apply H1.
    + intros (Hn & Hw). specialize (H2 c (firstn n rest) (skipn n rest)).
      rewrite firstn_skipn in H2. specialize (H2 eq_refl Hw).
      rewrite H2, firstn_length. f_equal. lia.
  - congruence.
  - rewrite (proj1 (utf32_ascii_char rest c n)). split.
    + intros (-> & r & -> & H). cbn. split; [lia|]. split; [exact H|reflexivity].
    + intros (Hn & Hc & H). destruct rest as [|u r]; [now rewrite firstn_nil in H|].
      destruct n as [|n]; [discriminate|]. cbn [firstn] in H. injection H as -> H.
      split; [|exists r; auto].
      destruct n; [reflexivity|]. destruct r as [|v r]; [cbn in Hn; lia|discriminate].
Qed.

Lemma class_matches_text E e rest n : E <> Enc Utf16 ->
  Forall (fun u => u < lbound E) rest -> sane e ->
  class_try E (build e) rest = Some n <-> exists c, encodes E rest c n /\ denotes e c.
Proof.
  intros HE Hb Hs. rewrite class_matches by assumption.
  split; intros (c & Hr & H); exists c; (split; [|exact H]); now apply reads_encodes.
Qed.

(** ** Contents of the named classes *)
Definition listed (k : ascii_class) (l : list N) : bool :=
  forallb (fun c => Bool.eqb (class_table k c) (existsb (N.eqb c) l)) ascii_codes.
Lemma listed_spec k l : listed k l = true -> forall c, c < 128 -> (class_table k c = true <-> In c l).
Proof.
  unfold listed. rewrite forallb_forall. intros H c Hc.
  specialize (H c (proj2 (ascii_codes_in c) Hc)). apply Bool.eqb_prop in H. rewrite H.
  rewrite existsb_exists. split.
  - intros (x & Hx & E). apply N.eqb_eq in E. now subst.
  - intros Hi. exists c. split; [exact Hi|apply N.eqb_refl].
Qed.
Lemma class_table_ascii k c : 128 <= c -> class_table k c = false.
Proof. intros H. destruct k; cbn; unfold in_range; lia. Qed.

Lemma named_classes : forall c,
  (class_table Ccontrol c = true <-> c <= 31 \/ c = 127) /\
  (class_table Cblank c = true <-> c = 32 \/ c = 9) /\
  (class_table Cnewline c = true <-> c = 10 \/ c = 13) /\
  (class_table Cother_space c = true <-> c = 11 \/ c = 12) /\
  (class_table Cspace c = true <-> In c [32; 9; 10; 13; 11; 12]) /\
  (class_table Clower c = true <-> In c letters_lower) /\
  (class_table Cupper c = true <-> In c letters_upper) /\
  (class_table Calpha c = true <-> In c letters_lower \/ In c letters_upper) /\
  (class_table Calphau c = true <-> In c letters_lower \/ In c letters_upper \/ c = 95) /\
  (class_table Cdigit c = true <-> In c decimal_digits) /\
  (class_table Calnum c = true <-> In c letters_lower \/ In c letters_upper \/ In c decimal_digits) /\
  (class_table Cword c = true <->
     In c letters_lower \/ In c letters_upper \/ In c decimal_digits \/ c = 95) /\
  (class_table Cpunct c = true <-> In c punctuation) /\
  (class_table Cgraph c = true <-> class_table Calnum c = true \/ class_table Cpunct c = true) /\
  (class_table Cprint c = true <-> class_table Cgraph c = true \/ c = 32) /\
  (class_table Cchar c = true <-> c <= 127) /\
  (class_table Cbinary c = true <-> In c [48; 49]) /\
  (class_table Coctal c = true <-> In c [48; 49; 50; 51; 52; 53; 54; 55]) /\
  (class_table Cdecimal c = true <-> In c decimal_digits) /\
  (class_table Chex_lower c = true <-> In c decimal_digits \/ In c [97; 98; 99; 100; 101; 102]) /\
  (class_table Chex_upper c = true <-> In c decimal_digits \/ In c [65; 66; 67; 68; 69; 70]) /\
  (class_table Chex c = true <->
     In c decimal_digits \/ In c [97; 98; 99; 100; 101; 102] \/ In c [65; 66; 67; 68; 69; 70]).
Proof.
  intros c. unfold letters_lower, letters_upper, decimal_digits, punctuation.
  cbn [In class_table]. unfold in_range.
  repeat match goal with |- _ /\ _ => split end; lia.
Qed.
