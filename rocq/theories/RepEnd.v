(** Reports end. *)
From Coq Require Import String Ascii.
From Verif Require Import Prelude CodecModel CodecSpec CodecProofs LitModel ClassSpec TextSpec LocModel LocSpec LocProofs LocText LocAnn LocWf
  VisModel VisSpec VisProofs VisText VisShow VisInj VisMain RepModel RepSpec RepProofs RepText RepMain.
Close Scope string_scope.
Open Scope N_scope.

(** ** The size of a text *)
Definition nl (l : list N) : N := N.of_nat (length l).
Lemma nl_app a b : nl (a ++ b) = nl a + nl b.
Proof. unfold nl. rewrite app_length. lia. Qed.
Lemma nl_repeat s n : nl (concat (repeat s n)) = N.of_nat n * nl s.
Proof. induction n as [|n IH]; [reflexivity|]. cbn [repeat concat]. rewrite nl_app, IH. lia. Qed.
Lemma nl_concat (f : N -> list N) b l : (forall c, nl (f c) <= b) -> nl (concat (map f l)) <= b * nl l.
Proof.
  intros H. induction l as [|c l IH]; [cbn [map concat]; unfold nl; cbn [length]; lia|]. cbn [map concat]. rewrite nl_app.
  pose proof (H c). assert (nl (c :: l) = nl l + 1) as -> by (unfold nl; cbn [length]; lia). lia.
Qed.
Lemma hex_length k : forall n, length (hex_digits k n) = k.
Proof. induction k as [|k IH]; intros n; [reflexivity|]. cbn [hex_digits]. rewrite app_length, IH. cbn [length]. lia. Qed.
Lemma nl_hex w n : (w <= 8)%nat -> nl (format_hex w n) <= 8.
Proof.
  intros H. unfold nl, format_hex. rewrite hex_length. unfold hex_size.
  repeat match goal with |- context [if ?c then _ else _] => destruct c end; lia.
Qed.

Section Size.
Variables (o : options).
Hypothesis Hc : is_set o visualize_use_color = false.
Hypothesis Ht : vo_tab_width o < 256.

Lemma nl_special s : nl s <= 10 -> nl (t_special o s) <= 16.
Proof.
  intros H. unfold t_special. rewrite !(no_color o Hc), !nl_app.
  assert (nl (str "⟨") = 3 /\ nl (str "\") = 1 /\ nl (str "⟩") = 3 /\ nl [] = 0) as (H1 & H2 & H3 & H4) by (vm_compute; auto).
  destruct (is_set o visualize_use_unicode); rewrite ?H1, ?H2, ?H3, ?H4; lia.
Qed.
Lemma nl_space : nl (t_space o) <= 8.
Proof.
  unfold t_space, t_symbol, t_special. rewrite !(no_color o Hc).
  destruct (is_set o visualize_space), (is_set o visualize_use_symbols), (is_set o visualize_use_unicode); vm_compute; discriminate.
Qed.
Lemma nl_cp cp : nl (t_cp o cp) <= 2040.
Proof.
  pose proof nl_space.
  assert (HX : forall p n, nl p <= 2 -> nl (p ++ format_hex 4 n) <= 10 /\ nl (p ++ format_hex 8 n) <= 10).
  { intros p n Hp. rewrite !nl_app. pose proof (nl_hex 4 n ltac:(lia)). pose proof (nl_hex 8 n ltac:(lia)). lia. }
  assert (HY : forall s, nl s <= 10 -> nl (t_special o s) <= 2040) by (intros s Hs; pose proof (nl_special s Hs); lia).
  assert (HZ : nl (str "U+????") <= 10 /\ nl (str "u????") <= 10 /\ nl (str "NUL") <= 10 /\ nl (str "0") <= 10 /\
    nl (str "CR") <= 10 /\ nl (str "r") <= 10 /\ nl (str "LF") <= 10 /\ nl (str "n") <= 10 /\ nl (str "HT") <= 10 /\
    nl (str "t") <= 10 /\ nl (str "\") <= 10) by (vm_compute; repeat split; discriminate).
  assert (HS : forall s, nl s <= 10 -> nl (t_symbol o s) <= 2040).
  { intros s Hs. unfold t_symbol. rewrite !(no_color o Hc), !nl_app. change (nl []) with 0. lia. }
  assert (HP : nl (str "U+") <= 2 /\ nl (str "u") <= 2 /\ nl (str "U") <= 2) by (vm_compute; repeat split; discriminate).
  assert (HQ : nl (str "⏎") <= 10 /\ nl (str "⇨") <= 10) by (vm_compute; repeat split; discriminate).
  unfold t_cp. cbv zeta.
  repeat match goal with
  | |- nl (if ?c then _ else _) <= _ => destruct c
  | |- nl (t_special o (if ?c then _ else _)) <= _ => destruct c
  | |- nl (t_special o ((if ?c then _ else _) ++ _)) <= _ => destruct c
  end;
  first [ apply HY; first [apply HX; apply HP | apply HZ] | apply HS; apply HQ | lia | idtac ].
  - rewrite nl_repeat. nia.
  - change (nl [0x5C]) with 1. lia.
  - change (nl [cp]) with 1. lia.
Qed.
Lemma nl_byte b : nl (t_byte o b) <= 16.
Proof.
  unfold t_byte. destruct (is_set o visualize_use_unicode) eqn:E; apply nl_special; rewrite nl_app;
    pose proof (nl_hex 2 b ltac:(lia));
    assert (nl (str "0x") = 2 /\ nl (str "x") = 1) as (H1 & H2) by (vm_compute; auto); lia.
Qed.
Lemma nl_skipped e c : nl (t_skipped e o c) <= 64.
Proof.
  assert (H : forall b x, nl (if b : bool then t_byte o x else []) <= 16).
  { intros b x. destruct b; [apply nl_byte|vm_compute; discriminate]. }
  destruct e; unfold t_skipped; cbv zeta.
  - vm_compute. discriminate.
  - pose proof (nl_byte (N.land c 255)). lia.
  - rewrite nl_app. pose proof (H (negb (N.land (N.shiftr c 8) 255 =? 0)) (N.land (N.shiftr c 8) 255)).
    pose proof (nl_byte (N.land c 255)). lia.
  - rewrite !nl_app. set (x := N.land (N.shiftr c 24) 255). set (y := N.land (N.shiftr c 16) 255). set (z := N.land (N.shiftr c 8) 255).
    pose proof (H (negb (x =? 0)) x). pose proof (H (negb (x =? 0) || negb (y =? 0)) y).
    pose proof (H (negb (x =? 0) || negb (y =? 0) || negb (z =? 0)) z). pose proof (nl_byte (N.land c 255)). lia.
Qed.
Lemma nl_ellipsis : nl (t_ellipsis o) <= 3.
Proof. unfold t_ellipsis. destruct (is_set o visualize_use_unicode); vm_compute; discriminate. Qed.

Lemma nl_unicode e : forall fuel rest count, nl (t_unicode fuel e rest count o) <= 2040 * N.of_nat fuel + 64 * nl rest + 3.
Proof.
  induction fuel as [|fuel IH]; intros rest count; [unfold nl; cbn [t_unicode length]; lia|]. cbn [t_unicode]. cbv zeta.
  assert (HN : forall t r c b, nl t <= b -> nl (t ++ (if c =? vo_max_lexeme_width o then t_ellipsis o else t_unicode fuel e r c o))
    <= b + (2040 * N.of_nat fuel + 64 * nl r + 3)).
  { intros t r c b Hb. rewrite nl_app. destruct (c =? vo_max_lexeme_width o).
    - pose proof nl_ellipsis. lia.
    - specialize (IH r c). lia. }
  assert (HF : forall n, nl (firstn n rest) + nl (skipn n rest) = nl rest).
  { intros n. rewrite <- nl_app. now rewrite firstn_skipn. }
  assert (HB : forall n, nl (concat (map (t_skipped e o) (firstn n rest))) <= 64 * nl (firstn n rest)).
  { intros n. apply nl_concat. apply nl_skipped. }
  destruct (cr_error (parse_code_point e rest)).
  - pose proof (HN _ (skipn (cr_end (parse_code_point e rest)) rest) (count_up count) 2040 (nl_cp (cr_cp (parse_code_point e rest)))).
    pose proof (HF (cr_end (parse_code_point e rest))). lia.
  - change (nl []) with 0. lia.
  - pose proof (HN _ (skipn (recover_code_point (parse_code_point e rest)) rest) (count_up count) _ (HB (recover_code_point (parse_code_point e rest)))).
    pose proof (HF (recover_code_point (parse_code_point e rest))). lia.
  - pose proof (HN _ (skipn (recover_code_point (parse_code_point e rest)) rest) (count_up count) _ (HB (recover_code_point (parse_code_point e rest)))).
    pose proof (HF (recover_code_point (parse_code_point e rest))). lia.
  - pose proof (HN _ (skipn (recover_code_point (parse_code_point e rest)) rest) (count_up count) _ (HB (recover_code_point (parse_code_point e rest)))).
    pose proof (HF (recover_code_point (parse_code_point e rest))). lia.
  - pose proof (HN _ (skipn (recover_code_point (parse_code_point e rest)) rest) (count_up count) _ (HB (recover_code_point (parse_code_point e rest)))).
    pose proof (HF (recover_code_point (parse_code_point e rest))). lia.
  - pose proof (HN _ (skipn (recover_code_point (parse_code_point e rest)) rest) (count_up count) _ (HB (recover_code_point (parse_code_point e rest)))).
    pose proof (HF (recover_code_point (parse_code_point e rest))). lia.
Qed.
Lemma nl_units one : (forall c, nl (one c) <= 2040) -> forall us count, nl (t_units one us count o) <= 2040 * nl us + 3.
Proof.
  intros H. induction us as [|c us IH]; intros count; [unfold nl; cbn [t_units length]; lia|]. cbn [t_units]. cbv zeta. rewrite nl_app.
  pose proof (H c). assert (nl (c :: us) = nl us + 1) as -> by (unfold nl; cbn [length]; lia).
  destruct (_ =? _); [pose proof nl_ellipsis; lia|specialize (IH (count_up count)); lia].
Qed.
Lemma nl_lexeme e us : nl (t_lexeme (lexemes_of e) us o) <= 2104 * nl us + 2043.
Proof.
  assert (H1 : forall c, nl (t_char o c) <= 2040).
  { intros c. unfold t_char. destruct (c <=? 0x7F); [apply nl_cp|]. pose proof (nl_byte c). lia. }
  assert (H2 : forall c, nl (t_raw o c) <= 2040).
  { intros c. unfold t_raw. pose proof (nl_special (format_hex 2 c)). pose proof (nl_hex 2 c). lia. }
  assert (H3 : forall e, nl (t_unicode (S (length us)) e us 0 o) <= 2104 * nl us + 2043).
  { intros e'. pose proof (nl_unicode e' (S (length us)) us 0). unfold nl in *. lia. }
  destruct e as [[|[]]|]; cbn [lexemes_of t_lexeme t_flat]; auto.
  - pose proof (nl_units (t_char o) H1 us 0). lia.
  - pose proof (nl_units (t_char o) H1 us 0). lia.
  - pose proof (nl_units (t_raw o) H2 us 0). lia.
Qed.
End Size.

Lemma encoded_size cps : N.of_nat (length cps) <= nl (encoded Utf8 cps).
Proof.
  induction cps as [|c cps IH]; [unfold nl; cbn [encoded map concat length]; lia|]. unfold encoded. cbn [map concat]. rewrite nl_app. fold (encoded Utf8 cps).
  assert (1 <= nl (encode_code_point Utf8 c)).
  { rewrite encode_utf8_arith. repeat match goal with |- context [if ?b then _ else _] => destruct b end; vm_compute; discriminate. }
  cbn [length]. lia.
Qed.
Lemma reset_tab o f : vo_tab_width (reset o f) = vo_tab_width o.
Proof. reflexivity. Qed.
Lemma width_bound e us o : vo_tab_width o < 256 -> display_width (lexemes_of e) us o <= 2104 * nl us + 2043.
Proof.
  intros H. destruct (lexeme_width (lexemes_of e) us o) as (cps & _ & E & ->).
  pose proof (nl_lexeme (reset o visualize_use_color) (reset_color o) H e us) as HL. rewrite E in HL.
  pose proof (encoded_size cps). lia.
Qed.
Lemma units_in_size inp r : (length (units_in inp r) <= length inp)%nat.
Proof. unfold units_in. rewrite firstn_length, skipn_length. lia. Qed.

Lemma annotation_ends e c inp o k l r line m : N.of_nat (length inp) < 2 ^ 20 -> vo_tab_width o < 256 ->
  get_annotation (unit_encoding e) c inp l r = Some line -> exists t, t_annotation e c inp o k l r m = Done t.
Proof.
  intros Hl Ht Hg. unfold t_annotation. rewrite Hg. cbv zeta.
  assert (H : forall x, 2 ^ 32 <=? display_width (lexemes_of e) (units_in inp x) o = false).
  { intros x. pose proof (width_bound e (units_in inp x) o Ht). pose proof (units_in_size inp x). unfold nl in *. lia. }
  rewrite !H. cbn [orb]. eauto.
Qed.

Lemma text_annotation_ends u E inp pos l r o k m : text_units E inp -> (pos <= length inp)%nat ->
  N.of_nat (length inp) < 2 ^ 20 -> vo_tab_width o < 256 ->
  get_input_location E (policy u) inp pos input_anchor = Loc l -> (lo_column_begin l <= end_of r (lo_column_begin l))%nat ->
  exists t, annotation_output (InText E) (policy u) inp o k l r m = Done t.
Proof.
  intros Hi Hp Hlen Ht Hl He. rewrite annotation_output_eq.
  destruct (text_found u E inp pos l r Hi Hp Hl He) as (line & Hg & _).
  exact (annotation_ends (InText E) _ _ _ _ _ _ line _ Hlen Ht Hg).
Qed.

Lemma error_ends e inp err o path : text_units (unit_encoding e) inp -> error_in inp err ->
  N.of_nat (length inp) < 2 ^ 20 -> vo_tab_width o < 256 -> exists t, error_output e inp err o path = Done t.
Proof.
  intros Hi (Hp & Hend) Hlen Ht. rewrite error_output_eq.
  destruct (counted_exists e inp (er_context err) Hi ltac:(lia)) as (cl & Hcl).
  destruct (counted_exists e inp (er_position err) Hi ltac:(lia)) as (loc & Hloc).
  destruct (counted_line e inp (er_context err) cl Hi ltac:(lia) ltac:(lia) Hcl) as (Hn1 & _ & Hb1 & Hb1').
  destruct (counted_line e inp (er_position err) loc Hi ltac:(lia) ltac:(lia) Hloc) as (Hn2 & _ & Hb2 & Hb2').
  unfold t_error. cbv zeta. pose proof Hcl as Hcl'. unfold counted in Hcl'. rewrite Hcl'. cbn [located bind].
  rewrite (from_anchor (unit_encoding e) (default_counting e) inp Hi (er_context err) (er_position err) cl);
    [|destruct e; cbn; lia|lia|lia|exact Hcl|lia].
  pose proof Hloc as Hloc'. unfold counted in Hloc'. rewrite Hloc'. cbn [located bind].
  assert (HX : exists cx, t_context e inp o cl loc (er_context err) = Done cx).
  { unfold t_context. destruct (negb _); [|eauto].
    destruct (found e inp (er_context err) cl (EndAt (S (er_context err))) Hi ltac:(lia) Hcl ltac:(cbn [end_of]; lia)) as (line & Hg & _).
    destruct (annotation_ends e _ inp o Secondary cl _ line (str "beginning here") Hlen Ht Hg) as (t & ->). cbn [omap bind]. eauto. }
  destruct HX as (cx & ->). cbn [bind].
  destruct (found e inp (er_position err) loc (range_of (er_kind err)) Hi ltac:(lia) Hloc) as (line & Hg & _).
  { clear -Hend Hb2. destruct (er_kind err); cbn [range_of end_of]; lia. }
  destruct (annotation_ends e _ inp o Primary loc _ line
    (t_error_message e (reset o visualize_use_color) (er_kind err)) Hlen Ht Hg) as (t & ->). cbn [omap bind]. eauto.
Qed.

(** ** The sink *)
Fixpoint t_errors e inp opts path (errs : list error) : outcome (list N) :=
  match errs with
  | [] => Done []
  | err :: errs' => bind (t_error e inp err opts path) (fun t => omap (app t) (t_errors e inp opts path errs'))
  end.
Section Out.
Context {W I : Type} (put : W -> I -> N -> W * I).
Lemma calls_text e inp opts path errs : plain_or_shared (I := I) opts -> forall o n,
  sink_calls put e inp opts path (o, n) errs =
  omap (fun t => (write_str put o t, n + N.of_nat (length errs))) (t_errors e inp opts path errs).
Proof.
  intros H. induction errs as [|err errs IH]; intros o n.
  - cbn. now rewrite N.add_0_r.
  - cbn [sink_calls t_errors fst snd]. rewrite (error_text put _ _ _ _ _ _ H). unfold omap in *.
    destruct (t_error _ _ _ _ _) as [t| |]; [|reflexivity|reflexivity]. cbn [bind]. rewrite IH.
    destruct (t_errors _ _ _ _ _) as [ts| |]; [|reflexivity|reflexivity]. cbn [bind length]. rewrite str_app.
    f_equal. f_equal. lia.
Qed.
Lemma report_text e inp opts path errs o : plain_or_shared (I := I) opts ->
  report_errors put e inp opts path o errs =
  omap (fun t => (write_str put o (t ++ match errs with [] => [] | _ => [0x0A] end), N.of_nat (length errs)))
    (t_errors e inp opts path errs).
Proof.
  intros H. unfold report_errors. rewrite calls_text by exact H. unfold omap.
  destruct (t_errors _ _ _ _ _) as [t| |]; [|reflexivity|reflexivity]. cbn [bind]. rewrite N.add_0_l.
  destruct errs as [|err errs]; [now rewrite app_nil_r|].
  replace (N.of_nat (length (err :: errs)) =? 0) with false by (cbn [length]; lia).
  cbn [negb]. now rewrite put_str, str_app.
Qed.
End Out.

(** ** Outputs *)
Lemma message_written {W I} (put : W -> I -> N -> W * I) o opts kind m : plain_or_shared (I := I) opts ->
  write_message put o opts kind (fun o _ => written put o m) =
  written put o (fst (write_message append_put ([], tt) opts kind (fun o _ => written append_put o m))).
Proof.
  intros H. rewrite (message_text put _ _ _ _ m H) by (intros; apply written_str).
  rewrite (message_text append_put _ _ _ _ m (shared_unit opts)) by (intros; apply written_str).
  rewrite append_str. cbn [fst app]. symmetry. apply written_str.
Qed.
Lemma annotation_written {W I} (put : W -> I -> N -> W * I) e c inp o opts k l r m : plain_or_shared (I := I) opts ->
  write_annotation put e c inp o opts k l r (fun o _ => written put o m) =
  bind (annotation_output e c inp opts k l r m) (fun t => Done (written put o t)).
Proof.
  intros H. rewrite (annotation_text put _ _ _ _ _ _ _ _ _ m H) by (intros; apply written_str).
  rewrite annotation_output_eq. unfold omap. destruct (t_annotation _ _ _ _ _ _ _ _); [|reflexivity|reflexivity].
  cbn [bind]. now rewrite written_str.
Qed.
Lemma error_written {W I} (put : W -> I -> N -> W * I) e inp o err opts path : plain_or_shared (I := I) opts ->
  write_error put e inp o err opts path = bind (error_output e inp err opts path) (fun t => Done (written put o t)).
Proof.
  intros H. rewrite (error_text put _ _ _ _ _ _ H), error_output_eq. unfold omap.
  destruct (t_error _ _ _ _ _); [|reflexivity|reflexivity]. cbn [bind]. now rewrite written_str.
Qed.
Lemma sink_written {W I} (put : W -> I -> N -> W * I) e inp opts path o errs ts : plain_or_shared (I := I) opts ->
  Forall2 (fun err t => error_output e inp err opts path = Done t) errs ts ->
  report_errors put e inp opts path o errs =
  Done (written put o (concat ts ++ match errs with [] => [] | _ => [LF] end), N.of_nat (length errs)).
Proof.
  intros H HF. rewrite (report_text put _ _ _ _ _ _ H).
  assert (t_errors e inp opts path errs = Done (concat ts)) as ->.
  { induction HF as [|err t errs ts Ht _ IH]; [reflexivity|]. cbn [t_errors concat]. rewrite <- error_output_eq, Ht, IH. reflexivity. }
  cbn [omap bind]. now rewrite written_str.
Qed.

(** Five digits do not fit in the margin. *)
Definition far_input : list N := repeat 0x0A (N.to_nat 9999) ++ str "ab".
Lemma far_report :
  error_output (InText (Enc Utf8)) far_input (Error (str "p") (N.to_nat 10000) (N.to_nat 10000) (Generic (str "m") (N.to_nat 10001)))
    default_options None =
  Done (str "error: while parsing p" ++ [LF] ++ str "     |" ++ [LF] ++ str "10000 | ab" ++ [LF] ++ str "     |  ^ m" ++ [LF]).
Proof. vm_compute. reflexivity. Qed.
