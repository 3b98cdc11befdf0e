(** The lemmas behind the property theorems about visualization. *)
From Coq Require Import String Ascii.
From Verif Require Import Prelude CodecModel CodecSpec CodecProofs LitModel ClassSpec LocSpec VisModel VisSpec VisProofs VisText VisShow VisInj.
Close Scope string_scope.
Open Scope N_scope.

Lemma lexeme_output_eq e us o : lexeme_output e us o = t_lexeme e us o.
Proof. apply appended_lexeme. Qed.
Lemma point_output_eq cp o : point_output cp o = t_cp o cp.
Proof. apply appended_cp. Qed.
Lemma written_str {W I} (put : W -> I -> N -> W * I) t : forall out, written put out t = write_str put out t.
Proof. induction t as [|c t IH]; intros out; [reflexivity|]. cbn [written]. now rewrite IH. Qed.

Section Reset.
Variable o : options.
Lemma shows_point_reset cp t : shows_point (reset o visualize_use_color) cp t -> shows_point o cp t.
Proof. unfold shows_point. now rewrite reset_unicode, reset_symbols, reset_space. Qed.
Lemma shows_pieces_reset ps t : shows_pieces (reset o visualize_use_color) ps t -> shows_pieces o ps t.
Proof. unfold shows_pieces. now rewrite reset_unicode, reset_symbols, reset_space. Qed.
Lemma shows_bytes_reset ps t : shows_bytes (reset o visualize_use_color) ps t -> shows_bytes o ps t.
Proof. unfold shows_bytes. now rewrite reset_unicode. Qed.
End Reset.

Lemma point_shown cp o : shows_point o cp (displayed false (point_output cp o)).
Proof. rewrite point_output_eq, displayed_cp. apply shows_point_reset, cp_shown, reset_color. Qed.

Lemma single_byte_shown E us o : E = Default \/ E = Enc Ascii -> Forall (fun c => c < 256) us ->
  N.of_nat (length us) < 2 ^ 32 -> vo_max_lexeme_width o < 256 ->
  shows_pieces o (map char_piece us) (displayed false (lexeme_output (VFlat (VText E)) us o)).
Proof.
  intros HE Hu Hl Hw. rewrite lexeme_output_eq, displayed_lexeme. apply shows_pieces_reset.
  destruct HE as [-> | ->]; apply (chars_shown _ (reset_color o)); assumption.
Qed.
Lemma bytes_shown_all us o : Forall (fun c => c < 256) us ->
  N.of_nat (length us) < 2 ^ 32 -> vo_max_lexeme_width o < 256 ->
  shows_bytes o us (displayed false (lexeme_output (VFlat VBytes) us o)).
Proof.
  intros Hu Hl Hw. rewrite lexeme_output_eq, displayed_lexeme. apply shows_bytes_reset.
  apply (bytes_shown _ (reset_color o)); assumption.
Qed.
Lemma unicode_shown_all e us o : e <> Ascii -> Forall (readable e) us ->
  N.of_nat (length us) < 2 ^ 32 -> vo_max_lexeme_width o < 256 ->
  exists ps, read_as e us ps /\
    shows_pieces o (map (seen_piece e) ps) (displayed false (lexeme_output (VFlat (VText (Enc e))) us o)).
Proof.
  intros He Hu Hl Hw. rewrite lexeme_output_eq, displayed_lexeme.
  destruct (unicode_shown _ (reset_color o) e He Hw (S (length us)) us 0) as (ps & R & _ & ts & E);
    [lia|exact Hu|lia|cbn [vo_max_lexeme_width reset]; lia|].
  exists ps. split; [exact R|]. apply shows_pieces_reset. exists ts. rewrite map_length.
  rewrite N.add_0_l, N.sub_0_r in E. destruct e; [congruence| | |]; exact E.
Qed.

Lemma stops_at_F8 : exists us, Forall (fun c => c < 256) us /\ us <> [0x61] /\
  forall o, lexeme_output (VFlat (VText (Enc Utf8))) us o = lexeme_output (VFlat (VText (Enc Utf8))) [0x61] o.
Proof.
  exists [0x61; 0xF8; 0x62]. split; [repeat constructor|]. split; [discriminate|].
  intros o. rewrite !lexeme_output_eq. cbn [t_lexeme t_flat length]. reflexivity.
Qed.

Lemma displayed_eq e us1 us2 o : lexeme_output e us1 o = lexeme_output e us2 o ->
  displayed false (lexeme_output e us1 o) = displayed false (lexeme_output e us2 o).
Proof. now intros ->. Qed.

Lemma seen_utf8 ps : map (seen_piece Utf8) ps = ps.
Proof. induction ps as [|[] ps IH]; cbn [map seen_piece seen]; now rewrite ?IH. Qed.

Lemma utf8_injective us1 us2 o : Forall (readable Utf8) us1 -> Forall (readable Utf8) us2 ->
  N.of_nat (length us1) < 2 ^ 32 -> N.of_nat (length us2) < 2 ^ 32 ->
  vo_tab_width o = 0 -> vo_max_lexeme_width o = 0 ->
  lexeme_output (VFlat (VText (Enc Utf8))) us1 o = lexeme_output (VFlat (VText (Enc Utf8))) us2 o -> us1 = us2.
Proof.
  intros H1 H2 L1 L2 Ht Hw E. apply displayed_eq in E.
  destruct (unicode_shown_all Utf8 us1 o ltac:(discriminate) H1 L1 ltac:(lia)) as (p1 & R1 & S1).
  destruct (unicode_shown_all Utf8 us2 o ltac:(discriminate) H2 L2 ltac:(lia)) as (p2 & R2 & S2).
  rewrite seen_utf8 in S1, S2. rewrite E in S1.
  assert (B : forall us, Forall (readable Utf8) us -> Forall (fun c => c < 256) us).
  { intros us. apply Forall_impl. intros c (Hc & _). exact Hc. }
  destruct (utf8_units us1 p1 (B _ H1) R1) as (K1 & U1). destruct (utf8_units us2 p2 (B _ H2) R2) as (K2 & U2).
  rewrite U1, U2. now rewrite (shows_items o p1 p2 _ Ht Hw K1 K2 S1 S2).
Qed.
Lemma single_byte_injective E us1 us2 o : E = Default \/ E = Enc Ascii ->
  Forall (fun c => c < 256) us1 -> Forall (fun c => c < 256) us2 ->
  N.of_nat (length us1) < 2 ^ 32 -> N.of_nat (length us2) < 2 ^ 32 ->
  vo_tab_width o = 0 -> vo_max_lexeme_width o = 0 ->
  lexeme_output (VFlat (VText E)) us1 o = lexeme_output (VFlat (VText E)) us2 o -> us1 = us2.
Proof.
  intros HE H1 H2 L1 L2 Ht Hw E0. apply displayed_eq in E0.
  pose proof (single_byte_shown E us1 o HE H1 L1 ltac:(lia)) as S1.
  pose proof (single_byte_shown E us2 o HE H2 L2 ltac:(lia)) as S2. rewrite E0 in S1.
  rewrite (char_items_units us1 H1), (char_items_units us2 H2).
  now rewrite (shows_items o _ _ _ Ht Hw (char_pieces_ok _ H1) (char_pieces_ok _ H2) S1 S2).
Qed.
Lemma bytes_injective us1 us2 o :
  Forall (fun c => c < 256) us1 -> Forall (fun c => c < 256) us2 ->
  N.of_nat (length us1) < 2 ^ 32 -> N.of_nat (length us2) < 2 ^ 32 -> vo_max_lexeme_width o = 0 ->
  lexeme_output (VFlat VBytes) us1 o = lexeme_output (VFlat VBytes) us2 o -> us1 = us2.
Proof.
  intros H1 H2 L1 L2 Hw E0. apply displayed_eq in E0.
  pose proof (bytes_shown_all us1 o H1 L1 ltac:(lia)) as S1.
  pose proof (bytes_shown_all us2 o H2 L2 ltac:(lia)) as S2. rewrite E0 in S1.
  exact (shows_bytes_injective o us1 us2 _ Hw S1 S2).
Qed.

Lemma encode_readable e c : e <> Ascii -> scalar c -> Forall (readable e) (encode_code_point e c).
Proof.
  intros He Hs. unfold scalar in Hs. unfold readable. destruct e; [congruence| | |]; cbn [unit_bound eof].
  - rewrite encode_utf8_arith. destruct (c <=? 0x7F) eqn:E1; [|destruct (c <=? 0x7FF) eqn:E2; [|destruct (c <=? 0xFFFF) eqn:E3]];
      repeat constructor; intros; lia.
  - destruct (c <=? 0xFFFF) eqn:E.
    + unfold encode_code_point. rewrite E. repeat constructor; try discriminate; lia.
    + rewrite encode_utf16_supp by lia. repeat constructor; try discriminate; lia.
  - cbn. repeat constructor; try discriminate; lia.
Qed.
Lemma encoded_readable e cps : e <> Ascii -> Forall scalar cps -> Forall (readable e) (encoded e cps).
Proof.
  intros He H. induction H as [|c cps Hc _ IH]; [constructor|]. unfold encoded in *. cbn [map concat].
  apply Forall_app. split; [now apply encode_readable|exact IH].
Qed.
Lemma seen_points e cps : Forall (fun c => seen e c = c) cps -> map (seen_piece e) (map Point cps) = map Point cps.
Proof. intros H. induction H as [|c cps Hc _ IH]; [reflexivity|]. cbn [map seen_piece]. now rewrite Hc, IH. Qed.
Lemma points_ok cps : Forall scalar cps -> Forall piece_ok (map Point cps).
Proof. intros H. induction H as [|c cps Hc _ IH]; constructor; [unfold scalar in Hc; cbn; lia|exact IH]. Qed.
Lemma wf_injective e cps1 cps2 o : e <> Ascii ->
  Forall scalar cps1 -> Forall scalar cps2 ->
  Forall (fun c => seen e c = c) cps1 -> Forall (fun c => seen e c = c) cps2 ->
  N.of_nat (length (encoded e cps1)) < 2 ^ 32 -> N.of_nat (length (encoded e cps2)) < 2 ^ 32 ->
  vo_tab_width o = 0 -> vo_max_lexeme_width o = 0 ->
  lexeme_output (VFlat (VText (Enc e))) (encoded e cps1) o = lexeme_output (VFlat (VText (Enc e))) (encoded e cps2) o ->
  cps1 = cps2.
Proof.
  intros He H1 H2 G1 G2 L1 L2 Ht Hw E. apply displayed_eq in E.
  destruct (unicode_shown_all e _ o He (encoded_readable e _ He H1) L1 ltac:(lia)) as (p1 & R1 & S1).
  destruct (unicode_shown_all e _ o He (encoded_readable e _ He H2) L2 ltac:(lia)) as (p2 & R2 & S2).
  apply (wf_pieces e He _ _ H1) in R1. apply (wf_pieces e He _ _ H2) in R2. subst p1 p2.
  rewrite seen_points in S1, S2 by assumption. rewrite E in S1.
  pose proof (shows_items o _ _ _ Ht Hw (points_ok _ H1) (points_ok _ H2) S1 S2) as I.
  rewrite !point_items in I. clear -I. revert cps2 I.
  induction cps1 as [|c l IH]; intros [|d l'] I; cbn in I; try discriminate; [reflexivity|].
  injection I as -> I. f_equal. now apply IH.
Qed.
Lemma utf16_same : exists cps1 cps2, Forall scalar cps1 /\ Forall scalar cps2 /\ cps1 <> cps2 /\
  forall o, lexeme_output (VFlat (VText (Enc Utf16))) (encoded Utf16 cps1) o =
            lexeme_output (VFlat (VText (Enc Utf16))) (encoded Utf16 cps2) o.
Proof.
  exists [0x20000], [0x10000]. split; [repeat constructor; unfold scalar; lia|]. split; [repeat constructor; unfold scalar; lia|].
  split; [discriminate|]. intros o. rewrite !lexeme_output_eq. reflexivity.
Qed.
Lemma node_default e us o : lexeme_output (VNode e) us o = lexeme_output (VFlat e) us default_options.
Proof. now rewrite !lexeme_output_eq. Qed.
Lemma node_ignores_options : exists e us o, vo_max_lexeme_width o = 3 /\
  lexeme_output (VNode e) us o = str "abcdef" /\ lexeme_output (VFlat e) us o = str "abc...".
Proof. exists (VText (Enc Utf8)), (str "abcdef"), (Options 0 32 3 0). split; [reflexivity|]. split; vm_compute; reflexivity. Qed.

Lemma width_shown e us o : exists cps, Forall scalar cps /\
  displayed false (lexeme_output e us o) = encoded Utf8 cps /\ display_width e us o = N.of_nat (length cps).
Proof. rewrite lexeme_output_eq, displayed_lexeme. apply lexeme_width. Qed.
Lemma width_shown_point cp o : exists cps, Forall scalar cps /\
  displayed false (point_output cp o) = encoded Utf8 cps /\ display_width_code_point cp o = N.of_nat (length cps).
Proof. rewrite point_output_eq, displayed_cp. apply cp_width. Qed.

Lemma sample_shown :
  let sample60 := [0x61; 0x5C; 0xCC; 0x81; 0x0A; 0xC0] in
  Forall (readable Utf8) sample60 /\
  lexeme_output (VFlat (VText (Enc Utf8))) sample60 default_options = str "a\\\u0301\n\xC0" /\
  lexeme_output (VFlat (VText (Enc Utf8))) sample60 (Options 1 32 0 0) = str "a\⟨U+0301⟩⟨LF⟩⟨0xC0⟩" /\
  lexeme_output (VFlat (VText (Enc Utf8))) sample60 (Options 5 32 2 0) = str "a\…" /\
  display_width (VFlat (VText (Enc Utf8))) sample60 (Options 1 32 0 0) = 20 /\
  lexeme_output (VFlat (VText Default)) [0x09; 0x80] (Options 8 32 0 0) = str "\t\x80" /\
  lexeme_output (VFlat VBytes) [0x09; 0x80] default_options = str "\09\80" /\
  read_as Utf8 sample60 [Point 0x61; Point 0x5C; Point 0x301; Point 0x0A; Ill [0xC0]].
Proof.
  cbv zeta.
  assert (R : Forall (readable Utf8) [0x61; 0x5C; 0xCC; 0x81; 0x0A; 0xC0])
    by (repeat constructor; unfold readable; cbn; intros; try lia; discriminate).
  split; [exact R|]. split; [vm_compute; reflexivity|]. split; [vm_compute; reflexivity|]. split; [vm_compute; reflexivity|].
  split; [vm_compute; reflexivity|]. split; [vm_compute; reflexivity|]. split; [vm_compute; reflexivity|].
  cbn [read_as]. split; [unfold scalar; lia|]. eexists; split; [reflexivity|]. split; [unfold scalar; lia|].
  eexists; split; [reflexivity|]. split; [unfold scalar; lia|]. exists [0x0A; 0xC0]. split; [reflexivity|].
  split; [unfold scalar; lia|]. eexists; split; [reflexivity|]. split; [discriminate|]. split.
  - intros c n H. apply encodes_reads in H; [|discriminate|now do 4 apply Forall_inv_tail in R; inversion R].
    vm_compute in H. discriminate.
  - exists []. split; reflexivity.
Qed.

Lemma lexeme_written W I (put : W -> I -> N -> W * I) out e us o :
  is_set o visualize_use_color = false \/ (forall i j : I, i = j) ->
  visualize_lexeme put out e us o = written put out (lexeme_output e us o).
Proof. intros H. rewrite written_str, lexeme_output_eq. now apply lexeme_text. Qed.
Lemma point_written W I (put : W -> I -> N -> W * I) out cp o :
  is_set o visualize_use_color = false \/ (forall i j : I, i = j) ->
  visualize_code_point put out cp o = written put out (point_output cp o).
Proof. intros H. rewrite written_str, point_output_eq. now apply cp_text. Qed.
Lemma lexeme_pointer m p e us o : is_set o visualize_use_color = false ->
  exists m', visualize_lexeme pointer_put (m, p) e us o = (m', (p + length (lexeme_output e us o))%nat) /\
    filled m p (lexeme_output e us o) m'.
Proof. intros H. rewrite lexeme_text by (now left). rewrite lexeme_output_eq. apply pointer_str. Qed.
Lemma pointer_differs : exists e us o m p,
  snd (visualize_lexeme pointer_put (m, p) e us o) <> (p + length (lexeme_output e us o))%nat /\
  lexeme_output e us o = [0x1B] ++ str "[36;2m\n" ++ [0x1B] ++ str "[0m" /\
  map (fst (visualize_lexeme pointer_put (m, p) e us o)) (seq p 12) = [0x1B] ++ str "[36;m\n" ++ [0x1B] ++ str "[0m".
Proof.
  exists (VFlat (VText (Enc Utf8))), [0x0A], (Options 2 32 0 0), (fun _ => 0), 0%nat.
  split; [vm_compute; discriminate|]. split; vm_compute; reflexivity.
Qed.
