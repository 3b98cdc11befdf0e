(** The text of a visualization is the one specified. *)
From Coq Require Import String Ascii.
From Verif Require Import Prelude CodecModel CodecSpec CodecProofs LitModel ClassSpec LocSpec VisModel VisSpec VisProofs.
Close Scope string_scope.
Open Scope N_scope.

(** ** Numerals *)
Lemma numeral_app a : forall acc b,
  numeral acc (a ++ b) = match numeral acc a with Some x => numeral x b | None => None end.
Proof.
  induction a as [|c a IH]; intros acc b; [reflexivity|]. cbn [app numeral].
  destruct (digit_of c); [apply IH|reflexivity].
Qed.
Lemma digit_of_hex d : d < 16 -> digit_of (hex_digit d) = Some d.
Proof.
  intros H. unfold hex_digit, digit_of. destruct (d <? 10) eqn:E.
  - replace ((0x30 <=? 0x30 + d) && (0x30 + d <=? 0x39)) with true by lia. f_equal. lia.
  - replace ((0x30 <=? 0x41 + (d - 10)) && (0x41 + (d - 10) <=? 0x39)) with false by lia.
    replace ((0x41 <=? 0x41 + (d - 10)) && (0x41 + (d - 10) <=? 0x46)) with true by lia. f_equal. lia.
Qed.
Lemma hex_digits_length k : forall n, length (hex_digits k n) = k.
Proof. induction k as [|k IH]; intros n; [reflexivity|]. cbn [hex_digits]. rewrite app_length, IH. cbn. lia. Qed.
Lemma hex_digits_value k : forall n, n < 16 ^ N.of_nat k -> numeral 0 (hex_digits k n) = Some n.
Proof.
  induction k as [|k IH]; intros n H.
  - cbn in H. cbn. f_equal. lia.
  - cbn [hex_digits]. rewrite numeral_app, IH.
    + cbn [numeral]. rewrite digit_of_hex by (apply N.mod_lt; lia). f_equal. lia.
    + apply N.div_lt_upper_bound; [lia|]. rewrite <- N.pow_succ_r'. now replace (N.succ (N.of_nat k)) with (N.of_nat (S k)) by lia.
Qed.
Lemma hex_size_bound n : n < 2 ^ 32 -> n < 16 ^ N.of_nat (hex_size n).
Proof.
  intros H. unfold hex_size.
  repeat match goal with |- context [if ?b then _ else _] => destruct b eqn:? end; cbn in *; lia.
Qed.
Lemma hex_size_lower n : hex_size n = 1%nat \/ 16 ^ N.of_nat (hex_size n - 1) <= n.
Proof.
  unfold hex_size.
  repeat match goal with |- context [if ?b then _ else _] => destruct b eqn:? end; cbn in *; lia.
Qed.
Lemma hex_size_mono n k : n < 16 ^ N.of_nat k -> n < 2 ^ 32 -> (1 <= k)%nat -> (hex_size n <= k)%nat.
Proof.
  intros H H32 Hk. destruct (hex_size_lower n) as [E|E]; [lia|].
  destruct (Nat.le_gt_cases (hex_size n) k) as [L|L]; [exact L|exfalso].
  assert (16 ^ N.of_nat k <= 16 ^ N.of_nat (hex_size n - 1)) by (apply N.pow_le_mono_r; lia). lia.
Qed.
Lemma format_hex_value w n : n < 2 ^ 32 -> numeral 0 (format_hex w n) = Some n.
Proof.
  intros H. apply hex_digits_value. eapply N.lt_le_trans; [apply (hex_size_bound _ H)|].
  apply N.pow_le_mono_r; lia.
Qed.
Lemma format_hex_length w n : length (format_hex w n) = Nat.max w (hex_size n).
Proof. apply hex_digits_length. Qed.
Lemma hex_digits_hd k : forall n, 16 ^ N.of_nat k <= n -> n < 16 ^ N.of_nat (S k) -> hd 0 (hex_digits (S k) n) <> 0x30.
Proof.
  induction k as [|k IH]; intros n Hl Hu.
  - cbn in Hl, Hu. cbn [hex_digits app hd]. unfold hex_digit. destruct (n mod 16 <? 10) eqn:E; lia.
  - cbn [hex_digits].
    assert (H : hd 0 (hex_digits (S k) (n / 16)) <> 0x30).
    { apply IH.
      - apply N.div_le_lower_bound; [lia|]. rewrite <- N.pow_succ_r'. now replace (N.succ (N.of_nat k)) with (N.of_nat (S k)) by lia.
      - apply N.div_lt_upper_bound; [lia|]. rewrite <- N.pow_succ_r'. now replace (N.succ (N.of_nat (S k))) with (N.of_nat (S (S k))) by lia. }
    cbn [hex_digits] in H |- *. destruct (hex_digits k (n / 16 / 16)); cbn in *; exact H.
Qed.
Lemma format_hex_hd w n : n < 2 ^ 32 -> (1 <= w)%nat -> (w < length (format_hex w n))%nat ->
  hd 0 (format_hex w n) <> 0x30.
Proof.
  intros H H1. rewrite format_hex_length. intros Hw. unfold format_hex.
  replace (Nat.max w (hex_size n)) with (hex_size n) by lia.
  pose proof (hex_size_bound _ H) as Hb. destruct (hex_size_lower n) as [E|E]; [lia|].
  destruct (hex_size n) as [|k] eqn:Ek; [lia|]. apply hex_digits_hd; [|exact Hb].
  now replace (S k - 1)%nat with k in E by lia.
Qed.
Lemma format_hex_exact w n : n < 16 ^ N.of_nat w -> n < 2 ^ 32 -> (1 <= w)%nat -> length (format_hex w n) = w.
Proof.
  intros H H32 Hw. rewrite format_hex_length. pose proof (hex_size_mono n w H H32 Hw). lia.
Qed.

(** ** Reading *)
Lemma Forall_skipn {A} (P : A -> Prop) n l : Forall P l -> Forall P (skipn n l).
Proof. intros H. rewrite <- (firstn_skipn n l) in H. now apply Forall_app in H. Qed.
Lemma Forall_firstn {A} (P : A -> Prop) n l : Forall P l -> Forall P (firstn n l).
Proof. intros H. rewrite <- (firstn_skipn n l) in H. now apply Forall_app in H. Qed.
Lemma readable_lead e c : readable e c -> lead_ok e c.
Proof. unfold readable, lead_ok, unit_ok. tauto. Qed.
Lemma utf16_wf_encode cp us : utf16_wf cp us -> us = encode_code_point Utf16 cp.
Proof.
  intros (Hs & H). destruct us as [|h [|l [|]]]; try contradiction.
  - destruct H as [H ->]. unfold encode_code_point. now replace (h <=? 0xFFFF) with true by lia.
  - destruct H as (Hh & Hl & ->). unfold between in *. unfold scalar in Hs.
    rewrite encode_utf16_supp by lia. f_equal; [lia|]. f_equal. lia.
Qed.
Lemma encodes_reads e r c n : e <> Ascii -> Forall (readable e) r -> encodes (Enc e) r c n ->
  cr_error (parse_code_point e r) = success.
Proof.
  intros He Hr (Hn & H). destruct e; [congruence| | |].
  - destruct (utf8_characterised r) as (_ & P & _).
    { eapply Forall_impl; [|exact Hr]. intros a Ha. unfold readable in Ha. cbn in Ha. unfold byte. lia. }
    rewrite (P c (firstn n r) (skipn n r)); [reflexivity|now rewrite firstn_skipn|exact H].
  - pose proof (utf16_wf_encode _ _ H) as E. destruct (utf16_roundtrip_part c (skipn n r) (proj1 H)) as (_ & P).
    rewrite <- E, firstn_skipn in P. now rewrite P.
  - destruct H as (Hs & E). destruct r as [|a r]; [destruct n; discriminate|].
    destruct n as [|n]; [discriminate|]. cbn [firstn] in E. injection E as -> E.
    inversion Hr as [|? ? Ha]; subst. destruct (proj2 (utf32_parse c r (proj1 (proj2 Ha))) Hs) as (k & P). now rewrite P.
Qed.
Lemma parse_step e r : e <> Ascii -> Forall (readable e) r -> r <> [] ->
  (exists cp, scalar cp /\ cr_error (parse_code_point e r) = success /\
     cr_cp (parse_code_point e r) = seen e cp /\ (0 < cr_end (parse_code_point e r))%nat /\
     r = encode_code_point e cp ++ skipn (cr_end (parse_code_point e r)) r) \/
  (cr_error (parse_code_point e r) <> success /\ cr_error (parse_code_point e r) <> cp_eof /\
   (forall c n, ~ encodes (Enc e) r c n) /\
   (0 < recover_code_point (parse_code_point e r) <= length r)%nat).
Proof.
  intros He Hr Hne.
  assert (Hl : Forall (lead_ok e) r) by (eapply Forall_impl; [apply readable_lead|exact Hr]).
  assert (Hu : Forall (unit_ok e) r) by (eapply Forall_impl; [|exact Hl]; intros a Ha; exact (proj1 Ha)).
  destruct (parse_bounded e r Hu) as (B1 & B2 & _ & B4).
  assert (Ee : cr_error (parse_code_point e r) <> cp_eof) by (rewrite (parse_eof_iff e r Hl); exact Hne).
  specialize (B4 Ee).
  assert (D : {cr_error (parse_code_point e r) = success} + {cr_error (parse_code_point e r) <> success}) by decide equality.
  destruct D as [D|D].
  2: { right. split; [exact D|]. split; [exact Ee|]. split; [|lia]. intros c n H. apply D. now apply (encodes_reads e r c n). }
  left. unfold recover_code_point in B4. rewrite D in B4.
  destruct (parse_code_point e r) as [cp err n] eqn:P. cbn [cr_error cr_cp cr_end] in *. subst err.
  destruct e; [congruence| | |].
  - destruct (utf8_sound r cp n) as (Hn & Hw); [|exact P|].
    { eapply Forall_impl; [|exact Hr]. intros a Ha. unfold readable in Ha. cbn in Ha. unfold byte. lia. }
    exists cp. split; [exact (proj1 Hw)|]. split; [reflexivity|]. split; [reflexivity|]. split; [lia|].
    rewrite <- (utf8_wf_encode _ _ Hw). now rewrite firstn_skipn.
  - destruct (utf16_sound r cp n) as (Hn & cp' & Hw & E); [|exact P|].
    { eapply Forall_impl; [|exact Hr]. intros a Ha. unfold readable in Ha. cbn in Ha. lia. }
    exists cp'. split; [exact (proj1 Hw)|]. split; [reflexivity|]. split; [exact E|]. split; [lia|].
    rewrite <- (utf16_wf_encode _ _ Hw). now rewrite firstn_skipn.
  - destruct (utf32_success _ _ _ P) as (-> & rest & -> & Hs).
    exists cp. split; [exact Hs|]. split; [reflexivity|]. split; [reflexivity|]. split; [lia|]. reflexivity.
Qed.

(** Every text has pieces. *)
Lemma read_pieces e us : e <> Ascii -> Forall (readable e) us -> exists ps, read_as e us ps /\ (length ps <= length us)%nat.
Proof.
  intros He Hr0. enough (G : forall n us, (length us <= n)%nat -> Forall (readable e) us ->
    exists ps, read_as e us ps /\ (length ps <= length us)%nat) by exact (G _ us (le_n _) Hr0).
  clear us Hr0. intros n.
  induction n as [|n IH]; intros us Hn Hr.
  - destruct us; [|cbn in Hn; lia]. exists []. split; [reflexivity|cbn; lia].
  - destruct us as [|u us]; [exists []; split; [reflexivity|cbn; lia]|].
    remember (u :: us) as r eqn:Er. assert (Hne : r <> []) by (subst; discriminate). clear Er u us.
    assert (Hsk : forall n, Forall (readable e) (skipn n r)) by (intros k; now apply Forall_skipn).
    destruct (parse_step e r He Hr Hne) as [(cp & Hs & E1 & E2 & E3 & E4)|(E1 & E2 & E3 & E4)].
    + destruct (IH (skipn (cr_end (parse_code_point e r)) r)) as (ps & Rp & L);
        [rewrite skipn_length; destruct r; [congruence|cbn [length] in *; lia]|apply Hsk|].
      rewrite skipn_length in L. assert (length r <> 0)%nat by (destruct r; [congruence|discriminate]).
      exists (Point cp :: ps). split; [|cbn [length]; lia]. split; [exact Hs|].
      now exists (skipn (cr_end (parse_code_point e r)) r).
    + destruct (IH (skipn (recover_code_point (parse_code_point e r)) r)) as (ps & Rp & L);
        [rewrite skipn_length; lia|apply Hsk|].
      rewrite skipn_length in L.
      exists (Ill (firstn (recover_code_point (parse_code_point e r)) r) :: ps). split; [|cbn [length]; lia].
      split; [intros Z; apply (f_equal (@length N)) in Z; rewrite firstn_length in Z; cbn in Z; lia|].
      split; [exact E3|]. exists (skipn (recover_code_point (parse_code_point e r)) r). split; [now rewrite firstn_skipn|exact Rp].
Qed.

(** ** Without colors *)
Section Plain.
Variable o : options.
Hypothesis Hc : is_set o visualize_use_color = false.
Notation unicode := (is_set o visualize_use_unicode).

Lemma no_color h tl : t_color o h tl = [].
Proof. unfold t_color. now rewrite Hc. Qed.
Lemma special_plain s : t_special o s = special unicode s.
Proof. unfold t_special, special. rewrite !no_color. destruct unicode; cbn [app]; rewrite ?app_nil_r; reflexivity. Qed.
Lemma symbol_plain s : t_symbol o s = s.
Proof. unfold t_symbol. rewrite !no_color. apply app_nil_r. Qed.
Lemma space_plain : t_space o = space_text unicode (is_set o visualize_use_symbols) (is_set o visualize_space).
Proof.
  unfold t_space, space_text, named. rewrite symbol_plain, !special_plain.
  destruct (is_set o visualize_space), (is_set o visualize_use_symbols); try reflexivity.
  now destruct unicode.
Qed.

Lemma cp_shown cp : shows_point o cp (t_cp o cp).
Proof.
  unfold shows_point, t_cp. rewrite !symbol_plain, !special_plain, space_plain.
  unfold cp_is_valid, cp_is_control, cp_is_ascii, cp_is_bmp.
  destruct (N.leb_spec cp 0x10FFFF) as [Hv|Hv]; cbn [negb].
  2: { exact (pt_invalid _ _ _ _ cp Hv). }
  destruct ((cp <=? 0x1F) || ((0x7F <=? cp) && (cp <=? 0x9F))) eqn:Ec.
  { destruct (N.eqb_spec cp 0) as [->|H0]; [exact (pt_nul _ _ _ _)|].
    destruct (N.eqb_spec cp 0x0D) as [->|HD]; [exact (pt_cr _ _ _ _)|].
    destruct (N.eqb_spec cp 0x0A) as [->|HA].
    { pose proof (pt_lf unicode (is_set o visualize_use_symbols) (is_set o visualize_space) (vo_tab_width o)) as P.
      now destruct (is_set o visualize_use_symbols). }
    destruct (N.eqb_spec cp 0x09) as [->|H9].
    { pose proof (pt_tab unicode (is_set o visualize_use_symbols) (is_set o visualize_space) (vo_tab_width o)) as P.
      destruct (N.ltb_spec 0 (vo_tab_width o)) as [L|L].
      - replace (vo_tab_width o =? 0) with false in P by lia. exact P.
      - replace (vo_tab_width o =? 0) with true in P by lia. now destruct (is_set o visualize_use_symbols). }
    pose proof (pt_number unicode (is_set o visualize_use_symbols) (is_set o visualize_space) (vo_tab_width o) cp
                  (format_hex 4 cp)) as P.
    replace (cp <=? 0xFFFF) with true in P by lia.
    destruct unicode; apply P; try assumption; try lia; try (apply format_hex_value; lia).
    - rewrite format_hex_exact; cbn; lia.
    - apply format_hex_exact; cbn; lia. }
  destruct (N.eqb_spec cp 0x20) as [->|H20]; [exact (pt_space _ _ _ _)|].
  destruct (N.eqb_spec cp 0x5C) as [->|H5C].
  { pose proof (pt_backslash unicode (is_set o visualize_use_symbols) (is_set o visualize_space) (vo_tab_width o)) as P.
    unfold special. now destruct unicode. }
  destruct (N.leb_spec cp 0x7F) as [Ha|Ha].
  { apply pt_printable; [lia|assumption]. }
  pose proof (fun s => pt_number unicode (is_set o visualize_use_symbols) (is_set o visualize_space) (vo_tab_width o) cp s) as P.
  destruct unicode.
  - apply P; try lia; [apply format_hex_value; lia|]. split; [rewrite format_hex_length; lia|].
    intros L. apply format_hex_hd; lia.
  - destruct (N.leb_spec cp 0xFFFF) as [Hb|Hb]; apply P; try lia; try (apply format_hex_value; lia);
      apply format_hex_exact; cbn; lia.
Qed.

Lemma byte_shown b : b < 256 -> byte_text unicode b (t_byte o b).
Proof.
  intros H. unfold t_byte. rewrite !special_plain.
  pose proof (bt unicode b (format_hex 2 b)) as P.
  destruct unicode; apply P; first [apply format_hex_value; lia | apply format_hex_exact; cbn; lia].
Qed.
Lemma raw_shown b : b < 256 -> raw_text unicode b (t_raw o b).
Proof.
  intros H. unfold t_raw. rewrite special_plain. apply rt; [apply format_hex_value; lia|apply format_hex_exact; cbn; lia].
Qed.

Lemma land_FF c : N.land c 0xFF = c mod 256.
Proof. exact (land_ones_mod c 8). Qed.
Lemma shr_8 c : N.shiftr c 8 = c / 256.
Proof. exact (shiftr_div c 8). Qed.
Lemma shr_16 c : N.shiftr c 16 = c / 65536.
Proof. exact (shiftr_div c 16). Qed.
Lemma shr_24 c : N.shiftr c 24 = c / 16777216.
Proof. exact (shiftr_div c 24). Qed.

Lemma skipped_shown e c : e <> Ascii -> c < unit_bound e ->
  exists ts, Forall2 (byte_text unicode) (unit_bytes c) ts /\ t_skipped e o c = concat ts.
Proof.
  intros He H. unfold t_skipped, unit_bytes. cbv zeta. rewrite ?land_FF, ?shr_8, ?shr_16, ?shr_24.
  change (2 ^ 8) with 256. change (2 ^ 16) with 65536. change (2 ^ 24) with 16777216.
  destruct e; cbn [unit_bound] in H; [congruence| | |].
  - replace (c <? 256) with true by lia. replace (c mod 256) with c by lia.
    exists [t_byte o c]. split; [constructor; [now apply byte_shown|constructor]|]. cbn. now rewrite app_nil_r.
  - destruct (N.ltb_spec c 256) as [L|L].
    + replace (c / 256 mod 256) with 0 by lia. replace (c mod 256) with c by lia. cbn [N.eqb negb app].
      exists [t_byte o c]. split; [constructor; [now apply byte_shown|constructor]|]. cbn. now rewrite app_nil_r.
    + replace (c <? 65536) with true by lia. replace (c / 256 mod 256) with (c / 256) by lia.
      replace (c / 256 =? 0) with false by lia. cbn [negb].
      exists [t_byte o (c / 256); t_byte o (c mod 256)].
      split; [repeat constructor; apply byte_shown; lia|]. cbn [concat]. now rewrite app_nil_r.
  - destruct (N.ltb_spec c 256) as [L|L].
    + replace (c / 256 mod 256) with 0 by lia. replace (c / 65536 mod 256) with 0 by lia.
      replace (c / 16777216 mod 256) with 0 by lia. replace (c mod 256) with c by lia. cbn [N.eqb negb app orb].
      exists [t_byte o c]. split; [constructor; [now apply byte_shown|constructor]|]. cbn. now rewrite app_nil_r.
    + destruct (N.ltb_spec c 65536) as [L2|L2].
      { replace (c / 65536 mod 256) with 0 by lia. replace (c / 16777216 mod 256) with 0 by lia.
        replace (c / 256 mod 256) with (c / 256) by lia. replace (c / 256 =? 0) with false by lia. cbn [N.eqb negb app orb].
        exists [t_byte o (c / 256); t_byte o (c mod 256)].
        split; [repeat constructor; apply byte_shown; lia|]. cbn [concat]. now rewrite app_nil_r. }
      destruct (N.ltb_spec c 16777216) as [L3|L3].
      { replace (c / 65536 mod 256) with (c / 65536) by lia. replace (c / 16777216 mod 256) with 0 by lia.
        replace (c / 65536 =? 0) with false by lia. cbn [N.eqb negb app orb].
        exists [t_byte o (c / 65536); t_byte o (c / 256 mod 256); t_byte o (c mod 256)].
        split; [repeat constructor; apply byte_shown; lia|]. cbn [concat]. now rewrite app_nil_r. }
      replace (c / 16777216 mod 256) with (c / 16777216) by lia.
      replace (c / 16777216 =? 0) with false by lia. cbn [N.eqb negb app orb].
      exists [t_byte o (c / 16777216); t_byte o (c / 65536 mod 256); t_byte o (c / 256 mod 256); t_byte o (c mod 256)].
      split; [repeat constructor; apply byte_shown; lia|]. cbn [concat]. now rewrite app_nil_r.
Qed.
Lemma skipped_all e us : e <> Ascii -> Forall (fun c => c < unit_bound e) us ->
  exists ts, Forall2 (byte_text unicode) (concat (map unit_bytes us)) ts /\
    concat (map (t_skipped e o) us) = concat ts.
Proof.
  intros He H. induction H as [|c us Hc' _ (ts & F & E)]; [exists []; split; [constructor|reflexivity]|].
  destruct (skipped_shown e c He Hc') as (t1 & F1 & E1).
  exists (t1 ++ ts). cbn [map concat]. split; [now apply Forall2_app|]. now rewrite E, E1, concat_app.
Qed.

(** ** Rows *)
Lemma units_shown {A} (piece : N -> A) one (R : A -> list N -> Prop) us :
  vo_max_lexeme_width o < 2 ^ 32 -> N.of_nat (length us) < 2 ^ 32 ->
  (forall c, In c us -> R (piece c) (one c)) ->
  forall count, count + N.of_nat (length us) < 2 ^ 32 -> 
  (vo_max_lexeme_width o = 0 \/ count < vo_max_lexeme_width o) ->
  exists ts,
    if (vo_max_lexeme_width o =? 0) || (count + N.of_nat (length us) <? vo_max_lexeme_width o)
    then Forall2 R (map piece us) ts /\ t_units one us count o = concat ts
    else Forall2 R (firstn (N.to_nat (vo_max_lexeme_width o - count)) (map piece us)) ts /\
         t_units one us count o = concat ts ++ ellipsis unicode.
Proof.
  intros Hw Hl HR. induction us as [|c us IH]; intros count Hcount Hlt.
  - exists []. destruct ((vo_max_lexeme_width o =? 0) || (count + N.of_nat (length (@nil N)) <? vo_max_lexeme_width o)) eqn:E;
      [split; [constructor|reflexivity]|]. exfalso. cbn [length] in E. lia.
  - cbn [t_units]. cbv zeta. cbn [length] in *. unfold count_up.
    rewrite N.mod_small by lia.
    destruct (N.eqb_spec (count + 1) (vo_max_lexeme_width o)) as [Ew|Ew].
    + exists [one c]. replace ((vo_max_lexeme_width o =? 0) || (count + N.of_nat (S (length us)) <? vo_max_lexeme_width o)) with false by lia.
      replace (N.to_nat (vo_max_lexeme_width o - count)) with 1%nat by lia. cbn [map firstn concat].
      split; [constructor; [apply HR; now left|constructor]|]. now rewrite app_nil_r.
    + destruct (IH ltac:(lia) ltac:(intros; apply HR; now right) (count + 1) ltac:(lia) ltac:(lia)) as (ts & E).
      exists (one c :: ts).
      replace (count + N.of_nat (S (length us))) with (count + 1 + N.of_nat (length us)) by lia.
      destruct ((vo_max_lexeme_width o =? 0) || (count + 1 + N.of_nat (length us) <? vo_max_lexeme_width o)) eqn:Eb.
      * destruct E as (F & ->). split; [constructor; [apply HR; now left|exact F]|reflexivity].
      * destruct E as (F & ->). replace (N.to_nat (vo_max_lexeme_width o - count)) with (S (N.to_nat (vo_max_lexeme_width o - (count + 1)))) by lia.
        cbn [map firstn concat]. split; [constructor; [apply HR; now left|exact F]|now rewrite app_assoc].
Qed.

Lemma chars_shown us : vo_max_lexeme_width o < 256 -> N.of_nat (length us) < 2 ^ 32 -> Forall (fun c => c < 256) us ->
  shows_pieces o (map char_piece us) (t_units (t_char o) us 0 o).
Proof.
  intros Hw Hl Hu.
  assert (HR : forall c, In c us -> piece_text unicode (is_set o visualize_use_symbols) (is_set o visualize_space) (vo_tab_width o) (char_piece c) (t_char o c)).
  { intros c Hi. pose proof (proj1 (Forall_forall _ _) Hu c Hi) as Hb. cbv beta in Hb. unfold char_piece, t_char.
    destruct (N.ltb_spec c 0x80) as [L|L].
    - replace (c <=? 0x7F) with true by lia. exact (cp_shown c).
    - replace (c <=? 0x7F) with false by lia. exists [t_byte o c].
      unfold unit_bytes. cbn [map concat app]. change (2 ^ 8) with 256. replace (c <? 256) with true by lia.
      split; [constructor; [apply byte_shown; lia|constructor]|]. cbn [concat]. now rewrite app_nil_r. }
  assert (Hw' : vo_max_lexeme_width o < 2 ^ 32) by lia. assert (Hl' : 0 + N.of_nat (length us) < 2 ^ 32) by lia.
  assert (H0 : vo_max_lexeme_width o = 0 \/ 0 < vo_max_lexeme_width o) by lia.
  destruct (units_shown char_piece (t_char o) _ us Hw' Hl HR 0 Hl' H0) as (ts & E).
  exists ts. rewrite map_length. now rewrite N.add_0_l, N.sub_0_r in E.
Qed.
Lemma bytes_shown us : vo_max_lexeme_width o < 256 -> N.of_nat (length us) < 2 ^ 32 -> Forall (fun c => c < 256) us ->
  shows_bytes o us (t_units (t_raw o) us 0 o).
Proof.
  intros Hw Hl Hu.
  assert (Hw' : vo_max_lexeme_width o < 2 ^ 32) by lia. assert (Hl' : 0 + N.of_nat (length us) < 2 ^ 32) by lia.
  assert (H0 : vo_max_lexeme_width o = 0 \/ 0 < vo_max_lexeme_width o) by lia.
  assert (HR : forall c, In c us -> raw_text unicode c (t_raw o c)).
  { intros c Hi. apply raw_shown. exact (proj1 (Forall_forall _ _) Hu c Hi). }
  destruct (units_shown (fun c => c) (t_raw o) (raw_text unicode) us Hw' Hl HR 0 Hl' H0) as (ts & E).
  exists ts. now rewrite N.add_0_l, N.sub_0_r, map_id in E.
Qed.

Lemma unicode_shown e : e <> Ascii -> vo_max_lexeme_width o < 256 ->
  forall fuel us count, (length us < fuel)%nat -> Forall (readable e) us ->
  count + N.of_nat (length us) < 2 ^ 32 -> (vo_max_lexeme_width o = 0 \/ count < vo_max_lexeme_width o) ->
  exists ps, read_as e us ps /\ (length ps <= length us)%nat /\ exists ts,
    if (vo_max_lexeme_width o =? 0) || (count + N.of_nat (length ps) <? vo_max_lexeme_width o)
    then Forall2 (piece_text unicode (is_set o visualize_use_symbols) (is_set o visualize_space) (vo_tab_width o))
           (map (seen_piece e) ps) ts /\ t_unicode fuel e us count o = concat ts
    else Forall2 (piece_text unicode (is_set o visualize_use_symbols) (is_set o visualize_space) (vo_tab_width o))
           (firstn (N.to_nat (vo_max_lexeme_width o - count)) (map (seen_piece e) ps)) ts /\
         t_unicode fuel e us count o = concat ts ++ ellipsis unicode.
Proof.
  intros He Hw fuel. induction fuel as [|fuel IH]; intros us count Hf Hr Hl Hc'; [lia|].
  destruct us as [|u us].
  { exists []. split; [reflexivity|]. split; [reflexivity|]. exists []. cbn [length]. rewrite N.add_0_r.
    replace ((vo_max_lexeme_width o =? 0) || (count <? vo_max_lexeme_width o)) with true by lia.
    split; [constructor|]. cbn [t_unicode]. cbv zeta.
    assert (Z : cr_error (parse_code_point e []) = cp_eof) by (apply parse_eof_iff; [constructor|reflexivity]).
    rewrite Z. reflexivity. }
  remember (u :: us) as r eqn:Er. assert (Hne : r <> []) by (subst; discriminate). clear Er u us.
  (* one piece, then the rest *)
  assert (Step : forall p t rest, 
    piece_text unicode (is_set o visualize_use_symbols) (is_set o visualize_space) (vo_tab_width o) (seen_piece e p) t ->
    (length rest < length r)%nat -> Forall (readable e) rest ->
    (forall ps, read_as e rest ps -> read_as e r (p :: ps)) ->
    exists ps, read_as e r ps /\ (length ps <= length r)%nat /\ exists ts,
    if (vo_max_lexeme_width o =? 0) || (count + N.of_nat (length ps) <? vo_max_lexeme_width o)
    then Forall2 (piece_text unicode (is_set o visualize_use_symbols) (is_set o visualize_space) (vo_tab_width o))
           (map (seen_piece e) ps) ts /\
         t ++ (if count_up count =? vo_max_lexeme_width o then t_ellipsis o else t_unicode fuel e rest (count_up count) o) = concat ts
    else Forall2 (piece_text unicode (is_set o visualize_use_symbols) (is_set o visualize_space) (vo_tab_width o))
           (firstn (N.to_nat (vo_max_lexeme_width o - count)) (map (seen_piece e) ps)) ts /\
         t ++ (if count_up count =? vo_max_lexeme_width o then t_ellipsis o else t_unicode fuel e rest (count_up count) o)
           = concat ts ++ ellipsis unicode).
  { intros p t rest Hp Hlen Hrest Hread.
    assert (Ecnt : count_up count = count + 1) by (unfold count_up; apply N.mod_small; lia). rewrite Ecnt.
    destruct (N.eqb_spec (count + 1) (vo_max_lexeme_width o)) as [Ew|Ew].
    - (* the pieces of the rest, from the same loop without a limit *)
      destruct (read_pieces e rest He Hrest) as (ps & Rp & Lp).
      exists (p :: ps). split; [now apply Hread|]. split; [cbn [length]; lia|]. exists [t].
      replace ((vo_max_lexeme_width o =? 0) || (count + N.of_nat (length (p :: ps)) <? vo_max_lexeme_width o)) with false
        by (cbn [length]; lia).
      replace (N.to_nat (vo_max_lexeme_width o - count)) with 1%nat by lia. cbn [map firstn concat].
      split; [constructor; [exact Hp|constructor]|]. now rewrite app_nil_r.
    - destruct (IH rest (count + 1)) as (ps & Rp & Lp & ts & E); try assumption; try lia.
      exists (p :: ps). split; [now apply Hread|]. split; [cbn [length]; lia|]. exists (t :: ts). cbn [length].
      replace (count + N.of_nat (S (length ps))) with (count + 1 + N.of_nat (length ps)) by lia.
      destruct ((vo_max_lexeme_width o =? 0) || (count + 1 + N.of_nat (length ps) <? vo_max_lexeme_width o)) eqn:Eb.
      + destruct E as (F & ->). split; [constructor; assumption|reflexivity].
      + destruct E as (F & ->).
        replace (N.to_nat (vo_max_lexeme_width o - count)) with (S (N.to_nat (vo_max_lexeme_width o - (count + 1)))) by lia.
        cbn [map firstn concat]. split; [constructor; assumption|now rewrite app_assoc]. }
  cbn [t_unicode]. cbv zeta.
  assert (Hsk : forall n, Forall (readable e) (skipn n r)) by (intros n; now apply Forall_skipn).
  assert (Hfn : forall n, Forall (readable e) (firstn n r)) by (intros n; now apply Forall_firstn).
  destruct (parse_step e r He Hr Hne) as [(cp & Hs & E1 & E2 & E3 & E4)|(E1 & E2 & E3 & E4)].
  - rewrite E1, E2. apply (Step (Point cp)); [exact (cp_shown _)|rewrite skipn_length; destruct r; [congruence|cbn [length]; lia]|apply Hsk|].
    intros ps Rp. split; [exact Hs|]. now exists (skipn (cr_end (parse_code_point e r)) r).
  - destruct (skipped_all e (firstn (recover_code_point (parse_code_point e r)) r) He) as (ts & F & E).
    { eapply Forall_impl; [|apply Hfn]. intros a Ha. exact (proj1 Ha). }
    assert (Q := Step (Ill (firstn (recover_code_point (parse_code_point e r)) r))
      (concat (map (t_skipped e o) (firstn (recover_code_point (parse_code_point e r)) r)))
      (skipn (recover_code_point (parse_code_point e r)) r)).
    destruct (cr_error (parse_code_point e r)); try congruence;
    (apply Q; [exists ts; split; [exact F|exact E]|rewrite skipn_length; lia|apply Hsk|];
     intros ps Rp; split;
       [intros Z; apply (f_equal (@length N)) in Z; rewrite firstn_length in Z; cbn in Z; lia|];
     split; [exact E3|]; exists (skipn (recover_code_point (parse_code_point e r)) r); split; [now rewrite firstn_skipn|exact Rp]).
Qed.
End Plain.
