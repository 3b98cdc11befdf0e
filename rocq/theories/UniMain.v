(** Proofs about Unicode classes and case folding. *)
From Verif Require Import Prelude CodecModel CodecSpec CodecProofs SwarModel LitModel LitSpec LitProofs
  ClassModel ClassSpec ClassProofs UniTables UniModel UniSpec UniProofs UniCheck.
Open Scope N_scope.

Lemma row_has_category : forall c k po k', row_of c (k, po) -> (has_category c k' <-> category_eqb k k' = true).
Proof.
  intros c k po k' H. unfold has_category. rewrite (row_category _ _ _ H), category_eqb_eq.
  split; [intros [= ->]; reflexivity|intros ->; reflexivity].
Qed.
Lemma row_has : forall c k p o b, row_of c (k, (p, o)) -> (has b c <-> bit p b = true).
Proof.
  intros c k p o b H. unfold has. rewrite (row_property _ _ _ _ _ H).
  split; [intros [= ->]; reflexivity|intros ->; reflexivity].
Qed.
Lemma row_in_group : forall c k po ks, row_of c (k, po) -> (in_group c ks <-> is_in k ks = true).
Proof.
  intros c k po ks H. unfold in_group, is_in. rewrite existsb_exists. split.
  - intros (x & Hx & Hc). exists x. split; [exact Hx|]. now apply (row_has_category _ _ _ _ H).
  - intros (x & Hx & Hc). exists x. split; [exact Hx|]. now apply (row_has_category _ _ _ _ H).
Qed.
Lemma gc_is_row : forall c k po k', row_of c (k, po) -> gc_is k' c = Some (category_eqb k k').
Proof. intros c k po k' H. unfold gc_is. rewrite (row_category _ _ _ H). reflexivity. Qed.

(** ** The documented classes as a function of the row *)
Definition documentedb (k : uclass) (c : N) (r : row) : bool :=
  let '(g, (p, _)) := r in
  let cc := category_eqb g in
  let graph := negb (bit p whitespace || (cc Cc || (cc Cs || cc Cn))) in
  match k with
  | Unctrl => negb (cc Cc)
  | Ucontrol => cc Cc
  | Ublank => cc Zs || (c =? 0x09)
  | Unewline => existsb (N.eqb c) [0x0D; 0x0A; 0x85; 0x2028; 0x2029]
  | Uother_space => existsb (N.eqb c) [0x0C; 0x0B]
  | Uspace => bit p whitespace
  | Ulower => bit p lowercase
  | Uupper => bit p uppercase
  | Ualpha => bit p alphabetic
  | Udigit => cc Nd
  | Ualnum => bit p alphabetic || cc Nd
  | Uword => bit p alphabetic || (cc Nd || (is_in g [Mn; Mc; Me] || (cc Pc || bit p join_control)))
  | Ugraph => graph
  | Uprint => (graph || (cc Zs || (c =? 0x09))) && negb (cc Cc)
  | Uchar => negb (cc Cn)
  | Uxid_start => bit p xid_start
  | Uxid_start_underscore => bit p xid_start || (c =? 0x5F)
  | Uxid_continue => bit p xid_continue
  end.

Lemma existsb_In : forall c l, existsb (N.eqb c) l = true <-> In c l.
Proof.
  intros c l. rewrite existsb_exists. split.
  - intros (x & Hx & E). apply N.eqb_eq in E. subst. exact Hx.
  - intros H. exists c. split; [exact H|]. apply N.eqb_refl.
Qed.
Lemma negb_not : forall b (P : Prop), (P <-> b = true) -> (~ P <-> negb b = true).
Proof. intros [|] P H; cbn; intuition discriminate. Qed.
Lemma orb_or : forall a b (P Q : Prop), (P <-> a = true) -> (Q <-> b = true) -> (P \/ Q <-> (a || b)%bool = true).
Proof. intros a b P Q H1 H2. rewrite orb_true_iff. tauto. Qed.
Lemma andb_and : forall a b (P Q : Prop), (P <-> a = true) -> (Q <-> b = true) -> (P /\ Q <-> (a && b)%bool = true).
Proof. intros a b P Q H1 H2. rewrite andb_true_iff. tauto. Qed.
Lemma eqb_is : forall a b : N, a = b <-> (a =? b) = true.
Proof. intros. symmetry. apply N.eqb_eq. Qed.

Lemma documented_row : forall k c r, row_of c r -> (documented k c <-> documentedb k c r = true).
Proof.
  intros k c (g & (p & o)) H.
  pose proof (fun k' => row_has_category c g _ k' H) as Hc.
  pose proof (fun b => row_has c g p o b H) as Hb.
  pose proof (fun ks => row_in_group c g _ ks H) as Hg.
  destruct k; cbn [documented documentedb];
    repeat first [ apply Hc | apply Hb | apply Hg | apply eqb_is | (symmetry; apply existsb_In)
                 | apply negb_not | apply orb_or | apply andb_and ].
Qed.

(** ** Defined, and as documented *)
Lemma facts : forall c k p o, row_of c (k, (p, o)) -> row_good c (k, (p, o)) = true.
Proof. intros. eapply checked_row; [exact row_good_block_ok|exact rows_good|eassumption]. Qed.

Ltac unpack H :=
  cbv beta iota delta [row_good] in H;
  repeat match type of H with
         | (_ && _)%bool = true => let A := fresh "G" in apply andb_prop in H; destruct H as (H & A)
         end.

Lemma row_control : forall c k po, row_of c (k, po) -> is_control c = category_eqb k Cc.
Proof.
  intros c k (p & o) H. pose proof (facts _ _ _ _ H) as F. unpack F. now apply eqb_prop in F.
Qed.
Lemma row_surrogate : forall c k po, row_of c (k, po) -> cp_is_surrogate c = category_eqb k Cs.
Proof.
  intros c k (p & o) H. pose proof (facts _ _ _ _ H) as F. unpack F.
  match goal with G : Bool.eqb (cp_is_surrogate c) _ = true |- _ => now apply eqb_prop in G end.
Qed.
Lemma row_private : forall c k po, row_of c (k, po) -> is_private_use c = category_eqb k Co.
Proof.
  intros c k (p & o) H. pose proof (facts _ _ _ _ H) as F. unpack F.
  match goal with G : Bool.eqb (is_private_use c) _ = true |- _ => now apply eqb_prop in G end.
Qed.
Lemma row_white : forall c k p o, row_of c (k, (p, o)) ->
  bit p whitespace = category_eqb k Zs || existsb (N.eqb c) [0x09; 0x0D; 0x0A; 0x85; 0x2028; 0x2029; 0x0C; 0x0B].
Proof.
  intros c k p o H. pose proof (facts _ _ _ _ H) as F. unpack F.
  match goal with G : Bool.eqb (bit p whitespace) _ = true |- _ => now apply eqb_prop in G end.
Qed.

Lemma unicode_cp_row : forall k c r, row_of c r -> 128 <= c \/ k <> Unewline /\ k <> Uother_space /\
    k <> Uxid_start_underscore /\ k <> Ublank /\ k <> Uprint ->
  unicode_cp k c = Some (documentedb k c r).
Proof.
  intros k c (g & (p & o)) H Hc.
  pose proof (row_control c g _ H) as E1. pose proof (row_surrogate c g _ H) as E2.
  pose proof (fun b => row_property c g p o b H) as E3. pose proof (fun k' => gc_is_row c g _ k' H) as E4.
  pose proof (row_category c g _ H) as E5.
  destruct k; cbn [unicode_cp documentedb]; unfold graph_cp, blank_cp, space_cp; rewrite ?E1, ?E2, ?E3, ?E4, ?E5;
    try reflexivity.
  - destruct Hc as [Hc|Hc]; [|exfalso; destruct Hc as (? & ? & ? & ? & ?); congruence]. cbn.
    assert (Ez : (c =? 9) = false) by lia. rewrite Ez, orb_false_r. reflexivity.
  - f_equal. cbn [existsb]. destruct Hc as [Hc|Hc]; [|exfalso; destruct Hc as (? & ? & ? & ? & ?); congruence]. lia.
  - f_equal. cbn [existsb]. destruct Hc as [Hc|Hc]; [|exfalso; destruct Hc as (? & ? & ? & ? & ?); congruence]. lia.
  - cbn [orelse then_]. destruct (bit p alphabetic); reflexivity.
  - cbn [then_]. rewrite (row_two c g p o _ _ H). unfold group_eqb, is_in. cbn [group_members].
    destruct (bit p alphabetic), (category_eqb g Nd), (existsb (category_eqb g) [Mn; Mc; Me]),
      (category_eqb g Pc), (bit p join_control); reflexivity.
  - cbn. destruct (bit p whitespace), (category_eqb g Cc), (category_eqb g Cs), (category_eqb g Cn); reflexivity.
  - destruct Hc as [Hc|Hc]; [|exfalso; destruct Hc as (? & ? & ? & ? & ?); congruence]. cbn. assert (Ez : (c =? 9) = false) by lia. rewrite Ez.
    destruct (bit p whitespace), (category_eqb g Cc), (category_eqb g Cs), (category_eqb g Cn), (category_eqb g Zs);
      reflexivity.
  - destruct Hc as [Hc|Hc]; [|exfalso; destruct Hc as (? & ? & ? & ? & ?); congruence]. f_equal. assert (Ez : (c =? 0x5F) = false) by lia. rewrite Ez, orb_false_r. reflexivity.
Qed.

(** ** ASCII *)
Definition all_uclasses : list uclass :=
  [Unctrl; Ucontrol; Ublank; Unewline; Uother_space; Uspace; Ulower; Uupper; Ualpha; Udigit; Ualnum;
   Uword; Ugraph; Uprint; Uchar; Uxid_start; Uxid_start_underscore; Uxid_continue].
Lemma in_all_uclasses : forall k, In k all_uclasses.
Proof. intros []; cbn; tauto. Qed.
Lemma in_ascii_codes : forall c, c < 128 -> In c ascii_codes.
Proof.
  intros c H. unfold ascii_codes. apply in_map_iff. exists (N.to_nat c). split; [lia|].
  apply in_seq. lia.
Qed.
Definition row_at (c : N) : option row :=
  then_ (property_index c) (fun i => nth_error rows (N.to_nat i)).
Lemma row_at_row : forall c r, row_at c = Some r -> row_of c r.
Proof.
  intros c (k & (p & o)) H. unfold row_at in H.
  destruct (property_index c) as [i|] eqn:E; [|discriminate]. cbn [then_] in H.
  destruct (combine_nth_error _ _ _ _ _ _ _ H) as (A & B).
  destruct (combine_nth_error _ _ _ _ _ _ _ B) as (C & D).
  exists i. auto.
Qed.
Lemma row_row_at : forall c r, row_of c r -> row_at c = Some r.
Proof.
  intros c r H. pose proof (row_valid _ _ H) as Hv.
  destruct (row_at c) as [r'|] eqn:E.
  - f_equal. symmetry. apply (row_unique c); [exact H|]. now apply row_at_row.
  - exfalso. destruct H as (i & A & B & C & D). unfold row_at in E. rewrite A in E. cbn [then_] in E.
    apply nth_error_None in E. unfold array_at in B.
    assert (Hn : (N.to_nat i < length category)%nat) by (apply nth_error_Some; congruence).
    revert Hn E. generalize (N.to_nat i). intros m.
    replace (length category) with (length rows) by (vm_compute; reflexivity). lia.
Qed.
Definition ascii_good : bool :=
  forallb (fun c => match row_at c with
                    | Some r => forallb (fun k =>
                        Bool.eqb (class_table (unicode_ascii k) c) (documentedb k c r) &&
                        implb (yes (unicode_cp k c)) (class_table (unicode_ascii k) c)) all_uclasses
                    | None => false
                    end) ascii_codes.
Lemma ascii_is_good : ascii_good = true.
Proof. vm_cast_no_check (eq_refl true). Qed.

Lemma ascii_agrees : forall k c, c < 128 ->
  (class_table (unicode_ascii k) c = true <-> documented k c) /\
  (yes (unicode_cp k c) = true -> class_table (unicode_ascii k) c = true).
Proof.
  intros k c Hc. pose proof ascii_is_good as H. unfold ascii_good in H.
  rewrite forallb_forall in H. specialize (H c (in_ascii_codes c Hc)).
  destruct (row_at c) as [r|] eqn:E; [|discriminate].
  rewrite forallb_forall in H. specialize (H k (in_all_uclasses k)).
  apply andb_prop in H. destruct H as (H1 & H2).
  apply eqb_prop in H1. rewrite H1. split.
  - symmetry. apply documented_row. now apply row_at_row.
  - rewrite H1 in H2. destruct (yes (unicode_cp k c)); [intros _; exact H2|discriminate].
Qed.

(** ** Classes in rules *)
Lemma unicode_sane : forall k, sane (unicode k).
Proof.
  intros k. destruct k; cbn; try exact I; intros c Hc Hy; first
    [ exact (proj2 (ascii_agrees Unctrl c Hc) Hy) | exact (proj2 (ascii_agrees Ucontrol c Hc) Hy)
    | exact (proj2 (ascii_agrees Ublank c Hc) Hy) | exact (proj2 (ascii_agrees Unewline c Hc) Hy)
    | exact (proj2 (ascii_agrees Uspace c Hc) Hy) | exact (proj2 (ascii_agrees Ulower c Hc) Hy)
    | exact (proj2 (ascii_agrees Uupper c Hc) Hy) | exact (proj2 (ascii_agrees Ualpha c Hc) Hy)
    | exact (proj2 (ascii_agrees Udigit c Hc) Hy) | exact (proj2 (ascii_agrees Ualnum c Hc) Hy)
    | exact (proj2 (ascii_agrees Uword c Hc) Hy) | exact (proj2 (ascii_agrees Ugraph c Hc) Hy)
    | exact (proj2 (ascii_agrees Uprint c Hc) Hy) | exact (proj2 (ascii_agrees Uchar c Hc) Hy)
    | exact (proj2 (ascii_agrees Uxid_start c Hc) Hy)
    | exact (proj2 (ascii_agrees Uxid_start_underscore c Hc) Hy)
    | exact (proj2 (ascii_agrees Uxid_continue c Hc) Hy) ].
Qed.

Lemma unicode_defined : forall k c, c <= 0x10FFFF -> exists b, unicode_cp k c = Some b.
Proof.
  intros k c Hc. destruct (has_row c Hc) as (r & Hr).
  destruct (N.lt_ge_cases c 128) as [Hl|Hl].
  - destruct r as (g & (p & o)).
    pose proof (fun b => row_property c g p o b Hr) as E3. pose proof (fun k' => gc_is_row c g _ k' Hr) as E4.
    pose proof (row_category c g _ Hr) as E5. pose proof (row_two c g p o alphabetic join_control Hr) as E6.
    destruct k; cbn [unicode_cp]; unfold graph_cp, blank_cp, space_cp; rewrite ?E3, ?E4, ?E5, ?E6;
      cbn [orelse andalso then_];
      repeat match goal with |- exists b, (if ?x then _ else _) = _ => destruct x end; eauto.
  - exists (documentedb k c r). apply unicode_cp_row; auto.
Qed.

Lemma unicode_denotes : forall k c, c <= 0x10FFFF -> (denotes (unicode k) c <-> documented k c).
Proof.
  intros k c Hc. unfold unicode, denotes. destruct (N.ltb_spec c 128) as [Hl|Hl].
  - apply (proj1 (ascii_agrees k c Hl)).
  - destruct (has_row c Hc) as (r & Hr).
    pose proof (unicode_cp_row k c r Hr (or_introl Hl)) as E. rewrite (documented_row k c r Hr).
    destruct k; try (rewrite E; reflexivity).
    cbn [unicode_cp] in E. injection E as E. rewrite <- E. split; [tauto|discriminate].
Qed.

Lemma reads_valid : forall E rest c n, Forall (fun u => u < lbound E) rest -> reads E rest c n -> c <= 0x10FFFF.
Proof.
  intros [|[]] rest c n HF H; cbn [reads lbound] in *.
  - destruct H as (_ & r & _ & H). lia.
  - apply (proj2 (utf32_ascii_char rest c n)) in H. destruct H as (_ & r & _ & H). lia.
  - destruct (proj1 (utf8_characterised rest HF) c n H) as (_ & (Hs & _)). unfold scalar in Hs. lia.
  - destruct (utf16_sound rest c n HF H) as (_ & cp' & (Hs & _) & ->). unfold scalar in Hs.
    destruct ((0x10000 <=? cp') && negb (N.odd (cp' / 0x10000))); lia.
  - apply (proj1 (utf32_ascii_char rest c n)) in H. destruct H as (_ & r & _ & H). unfold scalar in H. lia.
Qed.

Lemma unicode_class : forall E k rest n, Forall (fun u => u < lbound E) rest ->
  (class_try E (build (unicode k)) rest = Some n <-> exists c, reads E rest c n /\ documented k c).
Proof.
  intros E k rest n HF. rewrite class_matches by (auto using unicode_sane).
  split; intros (c & H1 & H2); exists c; (split; [exact H1|]);
    apply (unicode_denotes k c (reads_valid E rest c n HF H1)); exact H2.
Qed.
Lemma encodes_valid : forall E rest c n, encodes E rest c n -> c <= 0x10FFFF.
Proof.
  intros [|[]] rest c n (_ & H); cbn in H; unfold utf8_wf, utf16_wf, utf32_wf, scalar in H; try lia;
    destruct H as (H & _); lia.
Qed.
Lemma unicode_class_text : forall E k rest n, E <> Enc Utf16 -> Forall (fun u => u < lbound E) rest ->
  (class_try E (build (unicode k)) rest = Some n <-> exists c, encodes E rest c n /\ documented k c).
Proof.
  intros E k rest n HE HF. rewrite class_matches_text by (auto using unicode_sane).
  split; intros (c & H1 & H2); exists c; (split; [exact H1|]);
    apply (unicode_denotes k c (encodes_valid E rest c n H1)); exact H2.
Qed.
Lemma no_test_undefined : forall E k rest c n, Forall (fun u => u < lbound E) rest -> reads E rest c n ->
  exists b, unicode_cp k c = Some b.
Proof. intros E k rest c n HF H. apply unicode_defined. eapply reads_valid; eassumption. Qed.

(** ** Categories *)
Lemma category_total : forall c, exists k, has_category c k.
Proof.
  intros c. destruct (N.le_gt_cases c 0x10FFFF) as [H|H].
  - destruct (has_row c H) as ((k & po) & Hr). exists k. exact (row_category _ _ _ Hr).
  - exists Cn. unfold has_category, general_category, cp_is_valid.
    assert (E : (c <=? 0x10FFFF) = false) by lia. rewrite E. reflexivity.
Qed.
Lemma category_pred_spec : forall k c, c <= 0x10FFFF ->
  exists b, category_pred k c = Some b /\ (b = true <-> has_category c k).
Proof.
  intros k c Hc. destruct (has_row c Hc) as ((g & po) & Hr).
  exists (category_eqb g k). split; [|symmetry; exact (row_has_category _ _ _ _ Hr)].
  destruct k; cbn [category_pred];
    rewrite ?(row_control _ _ _ Hr), ?(row_surrogate _ _ _ Hr), ?(row_private _ _ _ Hr), ?(gc_is_row _ _ _ _ Hr);
    reflexivity.
Qed.
Lemma group_pred_spec : forall g c,
  exists b, group_pred g c = Some b /\ (b = true <-> in_group c (group_members g)).
Proof.
  intros g c. destruct (category_total c) as (k & Hk). unfold group_pred. rewrite Hk. cbn [then_].
  exists (group_eqb g k). split; [reflexivity|]. unfold group_eqb, in_group. rewrite existsb_exists.
  split; intros (x & H1 & H2); exists x; (split; [exact H1|]).
  - apply category_eqb_eq in H2. subst. exact Hk.
  - unfold has_category in *. rewrite Hk in H2. injection H2 as ->. apply category_eqb_refl.
Qed.
Lemma cp_if_denotes : forall p c, denotes (cp_if p) c <-> p c = true.
Proof. intros p c. unfold cp_if, denotes. destruct (c <? 128); reflexivity. Qed.
Lemma cp_if_class : forall E p (Q : N -> Prop) rest n, Forall (fun u => u < lbound E) rest ->
  (forall c, c <= 0x10FFFF -> (p c = true <-> Q c)) ->
  (class_try E (build (cp_if p)) rest = Some n <-> exists c, reads E rest c n /\ Q c).
Proof.
  intros E p Q rest n HF HQ. rewrite class_matches by (auto; cbn; auto).
  split; intros (c & H1 & H2); exists c; (split; [exact H1|]);
    pose proof (reads_valid E rest c n HF H1) as Hv.
  - apply cp_if_denotes in H2. now apply HQ.
  - apply cp_if_denotes. now apply HQ.
Qed.
Lemma noncharacter_spec : forall c, is_noncharacter c = true <-> noncharacter_range c.
Proof.
  intros c. unfold is_noncharacter, noncharacter_range.
  assert (Hlo : N.land c 0xFFFF = c mod 0x10000).
  { change 0xFFFF with (N.ones 16). rewrite N.land_ones. reflexivity. }
  rewrite Hlo. pose proof (N.div_mod c 0x10000 ltac:(lia)) as Hd.
  pose proof (N.mod_lt c 0x10000 ltac:(lia)) as Hm.
  destruct ((0xFDD0 <=? c) && (c <=? 0xFDEF)) eqn:E; [split; [intros _; left; lia|reflexivity]|].
  rewrite orb_true_iff, !N.eqb_eq. split.
  - intros [H|H]; right; exists (c / 0x10000); lia.
  - intros [H|(plane & [H|H])]; [exfalso; lia| |].
    + left. subst c. rewrite N.add_comm, N.mod_add by lia. reflexivity.
    + right. subst c. rewrite N.add_comm, N.mod_add by lia. reflexivity.
Qed.

Lemma unicode_categories : forall E rest n, Forall (fun u => u < lbound E) rest ->
  (forall k, class_try E (build (cp_category k)) rest = Some n <->
     exists c, reads E rest c n /\ has_category c k) /\
  (forall g, class_try E (build (cp_group g)) rest = Some n <->
     exists c, reads E rest c n /\ in_group c (group_members g)) /\
  (class_try E (build cp_ascii) rest = Some n <-> exists c, reads E rest c n /\ c <= 0x7F) /\
  (class_try E (build cp_bmp) rest = Some n <-> exists c, reads E rest c n /\ c <= 0xFFFF) /\
  (class_try E (build cp_noncharacter) rest = Some n <->
     exists c, reads E rest c n /\ noncharacter_range c).
Proof.
  intros E rest n HF. split; [|split; [|split; [|split]]].
  - intros k. apply cp_if_class; [exact HF|]. intros c Hc.
    destruct (category_pred_spec k c Hc) as (b & -> & Hb). cbn. exact Hb.
  - intros g. apply cp_if_class; [exact HF|]. intros c Hc.
    destruct (group_pred_spec g c) as (b & -> & Hb). cbn. exact Hb.
  - apply cp_if_class; [exact HF|]. intros c Hc. unfold is_ascii. lia.
  - apply cp_if_class; [exact HF|]. intros c Hc. unfold is_bmp. lia.
  - apply cp_if_class; [exact HF|]. intros c Hc. apply noncharacter_spec.
Qed.

Lemma category_ranges : forall c, c <= 0x10FFFF ->
  (has_category c Cc <-> control_range c) /\
  (has_category c Cs <-> surrogate_range c) /\
  (has_category c Co <-> private_use_range c) /\
  (has_category c Zl <-> c = 0x2028) /\ (has_category c Zp <-> c = 0x2029) /\
  (noncharacter_range c -> has_category c Cn).
Proof.
  intros c Hc. destruct (has_row c Hc) as ((g & (p & o)) & Hr).
  pose proof (fun k' => row_has_category _ _ _ k' Hr) as Hcat. rewrite !Hcat.
  rewrite <- (row_control _ _ _ Hr), <- (row_surrogate _ _ _ Hr), <- (row_private _ _ _ Hr).
  pose proof (facts _ _ _ _ Hr) as F. unpack F.
  unfold is_control, control_range, cp_is_surrogate, surrogate_range, is_private_use, private_use_range.
  split; [lia|]. split; [lia|]. split; [lia|].
  split; [|split].
  - match goal with G : Bool.eqb (category_eqb g Zl) _ = true |- _ => apply eqb_prop in G; rewrite G end. lia.
  - match goal with G : Bool.eqb (category_eqb g Zp) _ = true |- _ => apply eqb_prop in G; rewrite G end. lia.
  - intros Hn. apply noncharacter_spec in Hn.
    match goal with G : implb (is_noncharacter c) _ = true |- _ => rewrite Hn in G; exact G end.
Qed.

Lemma groups_partition : forall k,
  (exists g, In g [GL; GM; GN; GP; GS; GZ; GC] /\ group_eqb g k = true /\
     forall g', In g' [GL; GM; GN; GP; GS; GZ; GC] -> group_eqb g' k = true -> g' = g) /\
  (group_eqb GLC k = true -> group_eqb GL k = true) /\
  (forall g, group_neqb g k = negb (group_eqb g k)).
Proof.
  intros k. split; [|split; [destruct k; cbn; auto|reflexivity]].
  destruct k; first
    [ exists GL; split; [cbn; tauto|split; [reflexivity|intros g' Hg; cbn in Hg; intuition subst; auto; discriminate]]
    | exists GM; split; [cbn; tauto|split; [reflexivity|intros g' Hg; cbn in Hg; intuition subst; auto; discriminate]]
    | exists GN; split; [cbn; tauto|split; [reflexivity|intros g' Hg; cbn in Hg; intuition subst; auto; discriminate]]
    | exists GP; split; [cbn; tauto|split; [reflexivity|intros g' Hg; cbn in Hg; intuition subst; auto; discriminate]]
    | exists GS; split; [cbn; tauto|split; [reflexivity|intros g' Hg; cbn in Hg; intuition subst; auto; discriminate]]
    | exists GZ; split; [cbn; tauto|split; [reflexivity|intros g' Hg; cbn in Hg; intuition subst; auto; discriminate]]
    | exists GC; split; [cbn; tauto|split; [reflexivity|intros g' Hg; cbn in Hg; intuition subst; auto; discriminate]] ].
Qed.

(** ** Relations between the classes *)
Definition relations_good (c : N) (r : row) : bool :=
  let d k := documentedb k c r in
  let g := fst r in
  implb (d Ulower) (d Ualpha && negb (d Uupper)) &&
  implb (d Uupper) (d Ualpha) &&
  implb (category_eqb g Lu) (d Uupper) && implb (category_eqb g Ll) (d Ulower) &&
  implb (is_in g [Lu; Ll; Lt; Lm; Lo]) (d Ualpha) &&
  implb (d Ualpha) (negb (d Udigit)) &&
  implb (d Ualnum) (d Uword) &&
  Bool.eqb (d Uspace) (d Ublank || (d Unewline || d Uother_space)) &&
  implb (d Uspace) (negb (d Uword) && negb (d Uxid_continue)) &&
  Bool.eqb (d Uchar) (d Ugraph || (d Uspace || (d Ucontrol || category_eqb g Cs))) &&
  implb (d Uprint) (d Uchar) &&
  implb (d Uxid_start) (d Uxid_start_underscore) &&
  implb (d Uxid_start_underscore) (d Uxid_continue) &&
  implb (d Uxid_start) (negb (d Udigit)) &&
  implb (d Udigit) (d Uxid_continue).
Definition relations_good_block (c : N) (r : row) : bool := plain_block c && relations_good c r.
Lemma relations_good_block_ok : forall c r k, relations_good_block c r = true -> k < 256 -> relations_good (c + k) r = true.
Proof.
  intros c (g & (p & o)) k H Hk. unfold relations_good_block in H. apply andb_prop in H. destruct H as (H & Hr).
  destruct (plain_same c k H Hk) as (_ & _ & _ & _ & E5). unfold relations_good in *. cbn [documentedb existsb] in *.
  repeat match goal with |- context [c + k =? ?x] => destruct (E5 x ltac:(lia)) as (-> & E) ; rewrite E in Hr; clear E end.
  exact Hr.
Qed.
Lemma relations_are_good : all_high relations_good relations_good_block 0 block_starts = true.
Proof. vm_cast_no_check (eq_refl true). Qed.
Lemma implb_imp : forall a b (P Q : Prop), implb a b = true -> (P <-> a = true) -> (Q <-> b = true) -> P -> Q.
Proof. intros [] [] P Q H HP HQ; cbn in H; try discriminate; intuition discriminate. Qed.
Lemma eqb_iff : forall a b (P Q : Prop), Bool.eqb a b = true -> (P <-> a = true) -> (Q <-> b = true) -> (P <-> Q).
Proof. intros a b P Q H HP HQ. apply eqb_prop in H. subst b. tauto. Qed.

Lemma unicode_relations : forall c, c <= 0x10FFFF ->
  (documented Ulower c -> documented Ualpha c /\ ~ documented Uupper c) /\
  (documented Uupper c -> documented Ualpha c) /\
  (has_category c Lu -> documented Uupper c) /\ (has_category c Ll -> documented Ulower c) /\
  (in_group c [Lu; Ll; Lt; Lm; Lo] -> documented Ualpha c) /\
  (documented Ualpha c -> ~ documented Udigit c) /\
  (documented Ualnum c -> documented Uword c) /\
  (documented Uspace c <-> documented Ublank c \/ documented Unewline c \/ documented Uother_space c) /\
  (documented Uspace c -> ~ documented Uword c /\ ~ documented Uxid_continue c) /\
  (documented Uchar c <->
     documented Ugraph c \/ documented Uspace c \/ documented Ucontrol c \/ has_category c Cs) /\
  (documented Uprint c -> documented Uchar c) /\
  (documented Uxid_start c -> documented Uxid_start_underscore c) /\
  (documented Uxid_start_underscore c -> documented Uxid_continue c) /\
  (documented Uxid_start c -> ~ documented Udigit c) /\
  (documented Udigit c -> documented Uxid_continue c).
Proof.
  intros c Hc. destruct (has_row c Hc) as (r & Hr).
  pose proof (checked_row _ _ relations_good_block_ok relations_are_good c r Hr) as F. unfold relations_good in F.
  pose proof (fun k => documented_row k c r Hr) as HD.
  destruct r as (g & (p & o)).
  pose proof (fun k' => row_has_category _ _ _ k' Hr) as Hcat.
  pose proof (fun ks => row_in_group _ _ _ ks Hr) as Hg. cbn [fst] in F.
  repeat match type of F with
         | (_ && _)%bool = true => let A := fresh "G" in apply andb_prop in F; destruct F as (F & A)
         end.
  repeat match goal with |- _ /\ _ => split end;
    first [ eapply implb_imp;
              [|solve [repeat first [ apply HD | apply Hcat | apply Hg | apply negb_not | apply andb_and ]]
               |solve [repeat first [ apply HD | apply Hcat | apply Hg | apply negb_not | apply andb_and ]]]
          | eapply eqb_iff;
              [|solve [repeat first [ apply HD | apply Hcat | apply orb_or ]]
               |solve [repeat first [ apply HD | apply Hcat | apply orb_or ]]] ]; assumption.
Qed.
