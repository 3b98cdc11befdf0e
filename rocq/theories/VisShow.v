(** Colors are not displayed, the width is the number of characters. *)
From Coq Require Import String Ascii.
From Verif Require Import Prelude CodecModel CodecSpec CodecProofs LitModel ClassSpec LocSpec VisModel VisSpec VisProofs VisText.
Close Scope string_scope.
Open Scope N_scope.

(** ** Flags *)
Lemma set_bit o k : is_set o (2 ^ k) = N.testbit (vo_flags o) k.
Proof.
  unfold is_set. destruct (N.testbit (vo_flags o) k) eqn:E.
  - destruct (N.eqb_spec (N.land (vo_flags o) (2 ^ k)) 0) as [H|H]; [|reflexivity].
    apply (f_equal (fun x => N.testbit x k)) in H. rewrite N.land_spec, N.pow2_bits_true, E, N.bits_0 in H. discriminate.
  - destruct (N.eqb_spec (N.land (vo_flags o) (2 ^ k)) 0) as [H|H]; [reflexivity|].
    exfalso. apply H. apply N.bits_inj. intros i. rewrite N.land_spec, N.bits_0.
    destruct (N.eq_dec i k) as [->|Hn]; [now rewrite E|]. rewrite N.pow2_bits_false by congruence. apply andb_false_r.
Qed.
Lemma reset_bit o j k : is_set (reset o (2 ^ j)) (2 ^ k) = is_set o (2 ^ k) && negb (j =? k).
Proof.
  rewrite !set_bit. unfold reset. cbn [vo_flags]. rewrite N.ldiff_spec. f_equal. f_equal.
  apply N.pow2_bits_eqb.
Qed.
Lemma set_flag_bit o j k : is_set (set_flag o (2 ^ j)) (2 ^ k) = is_set o (2 ^ k) || (j =? k).
Proof.
  rewrite !set_bit. unfold set_flag. cbn [vo_flags]. rewrite N.lor_spec. f_equal. apply N.pow2_bits_eqb.
Qed.
Lemma reset_color o : is_set (reset o visualize_use_color) visualize_use_color = false.
Proof. change visualize_use_color with (2 ^ 1). rewrite reset_bit. apply andb_false_r. Qed.
Lemma reset_unicode o : is_set (reset o visualize_use_color) visualize_use_unicode = is_set o visualize_use_unicode.
Proof. change visualize_use_color with (2 ^ 1). change visualize_use_unicode with (2 ^ 0). rewrite reset_bit. apply andb_true_r. Qed.
Lemma reset_symbols o : is_set (reset o visualize_use_color) visualize_use_symbols = is_set o visualize_use_symbols.
Proof. change visualize_use_color with (2 ^ 1). change visualize_use_symbols with (2 ^ 2). rewrite reset_bit. apply andb_true_r. Qed.
Lemma reset_space o : is_set (reset o visualize_use_color) visualize_space = is_set o visualize_space.
Proof. change visualize_use_color with (2 ^ 1). change visualize_space with (2 ^ 3). rewrite reset_bit. apply andb_true_r. Qed.
Lemma reset_plain o : is_set o visualize_use_color = false -> reset o visualize_use_color = o.
Proof.
  intros H. unfold reset. destruct o as [f d w t]. cbn. f_equal. apply N.bits_inj. intros i. rewrite N.ldiff_spec.
  change visualize_use_color with (2 ^ 1) in *. rewrite set_bit in H. cbn [vo_flags] in H.
  rewrite N.pow2_bits_eqb. destruct (N.eqb_spec 1 i) as [<-|Hn]; [now rewrite H|]. apply andb_true_r.
Qed.

(** ** Colors *)
Definition D (t t' : list N) : Prop := forall rest, displayed false (t ++ rest) = t' ++ displayed false rest.
Lemma D_app a a' b b' : D a a' -> D b b' -> D (a ++ b) (a' ++ b').
Proof. intros Ha Hb rest. rewrite <- app_assoc, Ha, Hb. now rewrite app_assoc. Qed.
Lemma D_nil : D [] [].
Proof. intros rest. reflexivity. Qed.
Lemma D_chars s : Forall (fun c => c <> 0x1B) s -> D s s.
Proof.
  intros H. induction H as [|c s Hc _ IH]; [apply D_nil|]. intros rest. cbn [app displayed].
  replace (c =? 0x1B) with false by lia. now rewrite IH.
Qed.
Lemma D_str s : forallb (fun c => negb (c =? 0x1B)) s = true -> D s s.
Proof.
  intros H. apply D_chars. apply Forall_forall. intros c Hc. rewrite forallb_forall in H. specialize (H c Hc). lia.
Qed.
Lemma escape_end l rest : Forall (fun c => c <> 0x6D) l -> displayed true (l ++ 0x6D :: rest) = displayed false rest.
Proof.
  intros H. induction H as [|c l Hc _ IH]; [reflexivity|]. cbn [app displayed].
  replace (c =? 0x6D) with false by lia. exact IH.
Qed.
Lemma code_chars c : Forall (fun x => x <> 0x6D) (t_code (color_code c)).
Proof. destruct c; vm_compute; repeat constructor; discriminate. Qed.
Lemma D_color o h tl : D (t_color o h tl) [].
Proof.
  unfold t_color. destruct (negb _); [apply D_nil|]. intros rest.
  replace (([27; 91] ++ t_code (color_code h) ++ concat (map (fun c => 59 :: t_code c) (map color_code tl)) ++ [109]) ++ rest)
    with (27 :: (91 :: t_code (color_code h) ++ concat (map (fun c => 59 :: t_code c) (map color_code tl))) ++ 109 :: rest)
    by (cbn [app]; rewrite <- !app_assoc; reflexivity).
  cbn [displayed]. change (27 =? 27) with true. cbv iota. rewrite escape_end; [reflexivity|].
  constructor; [discriminate|]. apply Forall_app. split; [apply code_chars|].
  induction tl as [|c tl IH]; [constructor|]. cbn [map concat]. constructor; [discriminate|].
  apply Forall_app. split; [apply code_chars|exact IH].
Qed.

Lemma hex_chars k : forall n, Forall (fun c => (0x30 <= c <= 0x39) \/ (0x41 <= c <= 0x46)) (hex_digits k n).
Proof.
  induction k as [|k IH]; intros n; [constructor|]. cbn [hex_digits]. apply Forall_app. split; [apply IH|].
  constructor; [|constructor]. unfold hex_digit. pose proof (N.mod_lt n 16 ltac:(lia)). destruct (n mod 16 <? 10) eqn:E; lia.
Qed.
Lemma D_hex w n : D (format_hex w n) (format_hex w n).
Proof. apply D_chars. eapply Forall_impl; [|apply hex_chars]. cbn. intros. lia. Qed.

Section Color.
Variable o : options.
Notation o' := (reset o visualize_use_color).

Lemma D_special s : D s s -> D (t_special o s) (t_special o' s).
Proof.
  intros H. unfold t_special. rewrite reset_unicode.
  rewrite !(no_color o' (reset_color o)). cbn [app]. rewrite app_nil_r.
  change (D (t_color o Cyan [Faint] ++ (if is_set o visualize_use_unicode then str "⟨" else str "\") ++ s ++
     (if is_set o visualize_use_unicode then str "⟩" else []) ++ t_color o Reset [])
    ([] ++ (if is_set o visualize_use_unicode then str "⟨" else str "\") ++ s ++ (if is_set o visualize_use_unicode then str "⟩" else []))).
  rewrite <- (app_nil_r (if is_set o visualize_use_unicode then str "⟩" else [])) at 2.
  repeat apply D_app; try apply D_color; try exact H; destruct (is_set o visualize_use_unicode); try (now apply D_str); apply D_nil.
Qed.
Lemma D_symbol s : D s s -> D (t_symbol o s) (t_symbol o' s).
Proof.
  intros H. unfold t_symbol. rewrite !(no_color o' (reset_color o)).
  repeat apply D_app; try apply D_color; exact H.
Qed.
Lemma D_space : D (t_space o) (t_space o').
Proof.
  unfold t_space. rewrite reset_unicode, reset_symbols, reset_space.
  destruct (is_set o visualize_space); [|now apply D_str].
  destruct (is_set o visualize_use_symbols); [now apply D_symbol, D_str|].
  destruct (is_set o visualize_use_unicode); now apply D_special, D_str.
Qed.
Lemma D_repeat t t' k : D t t' -> D (concat (repeat t k)) (concat (repeat t' k)).
Proof. intros H. induction k as [|k IH]; [apply D_nil|]. cbn [repeat concat]. now apply D_app. Qed.

Lemma D_cp cp : D (t_cp o cp) (t_cp o' cp).
Proof.
  unfold t_cp. rewrite reset_unicode, reset_symbols. cbn [vo_tab_width reset].
  destruct (negb (cp_is_valid cp)); [apply D_special; destruct (is_set o visualize_use_unicode); now apply D_str|].
  destruct (cp_is_control cp) eqn:Ec.
  { destruct (cp =? 0); [apply D_special; destruct (is_set o visualize_use_unicode); now apply D_str|].
    destruct (cp =? 0x0D); [apply D_special; destruct (is_set o visualize_use_unicode); now apply D_str|].
    destruct (cp =? 0x0A).
    { destruct (is_set o visualize_use_symbols); [now apply D_symbol, D_str|apply D_special; destruct (is_set o visualize_use_unicode); now apply D_str]. }
    destruct (cp =? 0x09).
    { destruct (0 <? vo_tab_width o); [apply D_repeat, D_space|].
      destruct (is_set o visualize_use_symbols); [now apply D_symbol, D_str|apply D_special; destruct (is_set o visualize_use_unicode); now apply D_str]. }
    apply D_special, D_app; [destruct (is_set o visualize_use_unicode); now apply D_str|apply D_hex]. }
  destruct (cp =? 0x20); [apply D_space|].
  destruct (cp =? 0x5C).
  { destruct (negb (is_set o visualize_use_unicode)); [now apply D_special, D_str|now apply D_str]. }
  destruct (cp_is_ascii cp).
  { apply D_chars. constructor; [|constructor]. unfold cp_is_control in Ec. lia. }
  apply D_special. destruct (is_set o visualize_use_unicode); [|destruct (cp_is_bmp cp)];
    (apply D_app; [now apply D_str|apply D_hex]).
Qed.
Lemma D_byte b : D (t_byte o b) (t_byte o' b).
Proof.
  unfold t_byte. rewrite reset_unicode.
  apply D_special. destruct (is_set o visualize_use_unicode); (apply D_app; [now apply D_str|apply D_hex]).
Qed.
Lemma D_raw b : D (t_raw o b) (t_raw o' b).
Proof. apply D_special, D_hex. Qed.
Lemma D_skipped e c : D (t_skipped e o c) (t_skipped e o' c).
Proof.
  unfold t_skipped. cbv zeta. destruct e; [apply D_nil|apply D_byte| |];
    repeat first [apply D_byte | apply D_nil | match goal with |- D (if ?b then _ else _) _ => destruct b end | apply D_app].
Qed.
Lemma D_skipped_list e l : D (concat (map (t_skipped e o) l)) (concat (map (t_skipped e o') l)).
Proof. induction l as [|c l IH]; [apply D_nil|]. cbn [map concat]. apply D_app; [apply D_skipped|exact IH]. Qed.
Lemma D_ellipsis : D (t_ellipsis o) (t_ellipsis o').
Proof. unfold t_ellipsis. rewrite reset_unicode. destruct (is_set o visualize_use_unicode); now apply D_str. Qed.
Lemma D_unicode e : forall fuel us count, D (t_unicode fuel e us count o) (t_unicode fuel e us count o').
Proof.
  intros fuel. induction fuel as [|fuel IH]; intros us count; [apply D_nil|].
  cbn [t_unicode]. cbv zeta. cbn [vo_max_lexeme_width reset].
  destruct (cr_error (parse_code_point e us)); try apply D_nil;
    (apply D_app; [first [apply D_cp|apply D_skipped_list]|]; destruct (count_up count =? vo_max_lexeme_width o); [apply D_ellipsis|apply IH]).
Qed.
Lemma D_units one one' : (forall c, D (one c) (one' c)) -> forall us count, D (t_units one us count o) (t_units one' us count o').
Proof.
  intros H us. induction us as [|c us IH]; intros count; [apply D_nil|].
  cbn [t_units]. cbv zeta. cbn [vo_max_lexeme_width reset].
  apply D_app; [apply H|]. destruct (count_up count =? vo_max_lexeme_width o); [apply D_ellipsis|apply IH].
Qed.
Lemma D_flat e us : D (t_flat e us o) (t_flat e us o').
Proof.
  assert (C : forall c, D (t_char o c) (t_char o' c)).
  { intros c. unfold t_char. destruct (c <=? 0x7F); [apply D_cp|apply D_byte]. }
  unfold t_flat. destruct e as [[|[]]|]; try apply D_unicode; apply D_units; try exact C. apply D_raw.
Qed.
End Color.

Lemma D_lexeme e us o : D (t_lexeme e us o) (t_lexeme e us (reset o visualize_use_color)).
Proof. destruct e as [e|e]; [apply D_flat|]. exact (D_flat default_options e us). Qed.
Lemma displayed_lexeme e us o : displayed false (t_lexeme e us o) = t_lexeme e us (reset o visualize_use_color).
Proof. rewrite <- (app_nil_r (t_lexeme e us o)), D_lexeme. apply app_nil_r. Qed.
Lemma displayed_cp cp o : displayed false (t_cp o cp) = t_cp (reset o visualize_use_color) cp.
Proof. rewrite <- (app_nil_r (t_cp o cp)), D_cp. apply app_nil_r. Qed.

(** ** Width *)
Definition V (t : list N) : Prop := exists cps, Forall scalar cps /\ t = encoded Utf8 cps.
Lemma encoded_app a b : encoded Utf8 (a ++ b) = encoded Utf8 a ++ encoded Utf8 b.
Proof. unfold encoded. now rewrite map_app, concat_app. Qed.
Lemma V_app a b : V a -> V b -> V (a ++ b).
Proof.
  intros (x & Hx & ->) (y & Hy & ->). exists (x ++ y). split; [now apply Forall_app|]. now rewrite encoded_app.
Qed.
Lemma V_nil : V [].
Proof. exists []. split; [constructor|reflexivity]. Qed.
Lemma V_ascii s : Forall (fun c => c < 0x80) s -> V s.
Proof.
  intros H. exists s. split; [eapply Forall_impl; [|exact H]; unfold scalar; cbn; intros; lia|].
  induction H as [|c s Hc _ IH]; [reflexivity|]. unfold encoded in *. cbn [map concat]. rewrite <- IH.
  unfold encode_code_point. now replace (c <=? 0x7F) with true by lia.
Qed.
Lemma V_str s : forallb (fun c => c <? 0x80) s = true -> V s.
Proof.
  intros H. apply V_ascii, Forall_forall. intros c Hc. rewrite forallb_forall in H. specialize (H c Hc). lia.
Qed.
Lemma V_one cp s : s = encode_code_point Utf8 cp -> scalar cp -> V s.
Proof. intros -> H. exists [cp]. split; [constructor; [exact H|constructor]|]. unfold encoded. cbn. now rewrite app_nil_r. Qed.
Lemma V_hex w n : V (format_hex w n).
Proof. apply V_ascii. eapply Forall_impl; [|apply hex_chars]. cbn. intros. lia. Qed.

Section Width.
Variable o : options.
Hypothesis Hc : is_set o visualize_use_color = false.

Lemma V_special s : V s -> V (t_special o s).
Proof.
  intros H. rewrite (special_plain o Hc). unfold special. destruct (is_set o visualize_use_unicode).
  - apply V_app; [apply (V_one 0x27E8); [reflexivity|unfold scalar; lia]|].
    apply V_app; [exact H|]. apply (V_one 0x27E9); [reflexivity|unfold scalar; lia].
  - apply V_app; [now apply V_str|exact H].
Qed.
Lemma V_symbol s : V s -> V (t_symbol o s).
Proof. now rewrite (symbol_plain o Hc). Qed.
Lemma V_space : V (t_space o).
Proof.
  unfold t_space. destruct (is_set o visualize_space); [|now apply V_str].
  destruct (is_set o visualize_use_symbols); [apply V_symbol, (V_one 0x2423); [reflexivity|unfold scalar; lia]|].
  destruct (is_set o visualize_use_unicode); now apply V_special, V_str.
Qed.
Lemma V_repeat t k : V t -> V (concat (repeat t k)).
Proof. intros H. induction k as [|k IH]; [apply V_nil|]. cbn [repeat concat]. now apply V_app. Qed.
Lemma V_cp cp : V (t_cp o cp).
Proof.
  unfold t_cp.
  destruct (negb (cp_is_valid cp)); [apply V_special; destruct (is_set o visualize_use_unicode); now apply V_str|].
  destruct (cp_is_control cp) eqn:Ec.
  { destruct (cp =? 0); [apply V_special; destruct (is_set o visualize_use_unicode); now apply V_str|].
    destruct (cp =? 0x0D); [apply V_special; destruct (is_set o visualize_use_unicode); now apply V_str|].
    destruct (cp =? 0x0A).
    { destruct (is_set o visualize_use_symbols); [|apply V_special; destruct (is_set o visualize_use_unicode); now apply V_str].
      apply V_symbol, (V_one 0x23CE); [reflexivity|unfold scalar; lia]. }
    destruct (cp =? 0x09).
    { destruct (0 <? vo_tab_width o); [apply V_repeat, V_space|].
      destruct (is_set o visualize_use_symbols); [|apply V_special; destruct (is_set o visualize_use_unicode); now apply V_str].
      apply V_symbol, (V_one 0x21E8); [reflexivity|unfold scalar; lia]. }
    apply V_special, V_app; [destruct (is_set o visualize_use_unicode); now apply V_str|apply V_hex]. }
  destruct (cp =? 0x20); [apply V_space|].
  destruct (cp =? 0x5C).
  { destruct (negb (is_set o visualize_use_unicode)); [now apply V_special, V_str|now apply V_str]. }
  destruct (cp_is_ascii cp) eqn:Ea.
  { apply V_ascii. constructor; [|constructor]. unfold cp_is_ascii in Ea. lia. }
  apply V_special. destruct (is_set o visualize_use_unicode); [|destruct (cp_is_bmp cp)];
    (apply V_app; [now apply V_str|apply V_hex]).
Qed.
Lemma V_byte b : V (t_byte o b).
Proof.
  unfold t_byte. apply V_special. destruct (is_set o visualize_use_unicode); (apply V_app; [now apply V_str|apply V_hex]).
Qed.
Lemma V_skipped e c : V (t_skipped e o c).
Proof.
  unfold t_skipped. cbv zeta. destruct e; [apply V_nil|apply V_byte| |];
    repeat first [apply V_byte | apply V_nil | match goal with |- V (if ?b then _ else _) => destruct b end | apply V_app].
Qed.
Lemma V_skipped_list e l : V (concat (map (t_skipped e o) l)).
Proof. induction l as [|c l IH]; [apply V_nil|]. cbn [map concat]. apply V_app; [apply V_skipped|exact IH]. Qed.
Lemma V_ellipsis : V (t_ellipsis o).
Proof. unfold t_ellipsis. destruct (is_set o visualize_use_unicode); [apply (V_one 0x2026); [reflexivity|unfold scalar; lia]|now apply V_str]. Qed.
Lemma V_unicode e : forall fuel us count, V (t_unicode fuel e us count o).
Proof.
  intros fuel. induction fuel as [|fuel IH]; intros us count; [apply V_nil|].
  cbn [t_unicode]. cbv zeta.
  destruct (cr_error (parse_code_point e us)); try apply V_nil;
    (apply V_app; [first [apply V_cp|apply V_skipped_list]|]; destruct (count_up count =? vo_max_lexeme_width o); [apply V_ellipsis|apply IH]).
Qed.
Lemma V_units one : (forall c, V (one c)) -> forall us count, V (t_units one us count o).
Proof.
  intros H us. induction us as [|c us IH]; intros count; [apply V_nil|].
  cbn [t_units]. cbv zeta.
  apply V_app; [apply H|]. destruct (count_up count =? vo_max_lexeme_width o); [apply V_ellipsis|apply IH].
Qed.
Lemma V_flat e us : V (t_flat e us o).
Proof.
  assert (C : forall c, V (t_char o c)).
  { intros c. unfold t_char. destruct (c <=? 0x7F); [apply V_cp|apply V_byte]. }
  unfold t_flat. destruct e as [[|[]]|]; try apply V_unicode; apply V_units; try exact C.
  intros c. apply V_special, V_hex.
Qed.
End Width.
Lemma V_lexeme e us o : is_set o visualize_use_color = false -> V (t_lexeme e us o).
Proof. intros H. destruct e as [e|e]; [now apply V_flat|]. now apply V_flat. Qed.

Lemma land_C0 c : N.land c 0xC0 =? 0x80 = (0x80 <=? c mod 256) && (c mod 256 <? 0xC0).
Proof.
  assert (E : N.land c 0xC0 = N.land (c mod 256) 0xC0).
  { change 256 with (2 ^ 8). rewrite <- N.land_ones. rewrite <- N.land_assoc. reflexivity. }
  rewrite E.
  assert (F : forallb (fun x => Bool.eqb (N.land x 0xC0 =? 0x80) ((0x80 <=? x) && (x <? 0xC0))) (map N.of_nat (seq 0 256)) = true)
    by (vm_compute; reflexivity).
  rewrite forallb_forall in F. apply eqb_prop, F. apply in_map_iff. exists (N.to_nat (c mod 256)).
  pose proof (N.mod_lt c 256 ltac:(lia)). split; [lia|]. apply in_seq. lia.
Qed.
Lemma width_encode cp w : scalar cp ->
  write_str width_put (tt, w) (encode_code_point Utf8 cp) = (tt, w + 1).
Proof.
  intros Hs. rewrite encode_utf8_arith. unfold scalar in Hs.
  unfold write_str, put_char, width_put.
  destruct (cp <=? 0x7F) eqn:E1; [cbn [fold_left fst snd]; rewrite land_C0; replace (_ && _) with false by lia; reflexivity|].
  destruct (cp <=? 0x7FF) eqn:E2; [|destruct (cp <=? 0xFFFF) eqn:E3]; cbn [fold_left fst snd]; rewrite !land_C0;
    repeat match goal with |- context [negb ((0x80 <=? ?x) && (?x <? 0xC0))] =>
      let b := fresh in
      first [replace ((0x80 <=? x) && (x <? 0xC0)) with true by lia | replace ((0x80 <=? x) && (x <? 0xC0)) with false by lia] end;
    reflexivity.
Qed.
Lemma width_encoded cps : Forall scalar cps -> forall w,
  write_str width_put (tt, w) (encoded Utf8 cps) = (tt, w + N.of_nat (length cps)).
Proof.
  intros H. induction H as [|cp cps Hs _ IH]; intros w; [cbn; now rewrite N.add_0_r|].
  unfold encoded. cbn [map concat]. rewrite <- str_app, width_encode by exact Hs. fold (encoded Utf8 cps).
  rewrite IH. f_equal. cbn [length]. lia.
Qed.
Lemma lexeme_width e us o : exists cps, Forall scalar cps /\
  t_lexeme e us (reset o visualize_use_color) = encoded Utf8 cps /\ display_width e us o = N.of_nat (length cps).
Proof.
  destruct (V_lexeme e us (reset o visualize_use_color) (reset_color o)) as (cps & Hs & E).
  exists cps. split; [exact Hs|]. split; [exact E|]. unfold display_width.
  rewrite lexeme_text by (left; apply reset_color). rewrite E, width_encoded by exact Hs. cbn. lia.
Qed.
Lemma cp_width cp o : exists cps, Forall scalar cps /\
  t_cp (reset o visualize_use_color) cp = encoded Utf8 cps /\ display_width_code_point cp o = N.of_nat (length cps).
Proof.
  destruct (V_cp (reset o visualize_use_color) (reset_color o) cp) as (cps & Hs & E).
  exists cps. split; [exact Hs|]. split; [exact E|]. unfold display_width_code_point.
  rewrite cp_text by (left; apply reset_color). rewrite E, width_encoded by exact Hs. cbn. lia.
Qed.
