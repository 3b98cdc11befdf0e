(** The text of reports. *)
From Coq Require Import String Ascii.
From Verif Require Import Prelude CodecModel CodecSpec CodecProofs LitModel ClassSpec TextSpec LocModel LocSpec
  VisModel VisSpec VisProofs VisText VisShow VisInj VisMain RepModel RepSpec.
Close Scope string_scope.
Open Scope N_scope.

(** ** The text, as a list *)
Definition omap {A B} (f : A -> B) (x : outcome A) : outcome B := bind x (fun y => Done (f y)).
Definition t_kind (opts : options) (kind : diagnostic_kind) : list N :=
  match kind with
  | DError => t_color opts Red [Bold] ++ str "error: "
  | DWarning => t_color opts Yellow [Bold] ++ str " warn: "
  | DNote => t_color opts Bold [] ++ str " note: "
  | DInfo => t_color opts Bold [] ++ str " info: "
  | DDebug => t_color opts Bold [] ++ str "debug: "
  | DFixit => t_color opts Bold [] ++ str "fixit: "
  | DHelp => t_color opts Bold [] ++ str " help: "
  end.
Definition t_message opts kind (m : list N) : list N := t_kind opts kind ++ t_color opts Reset [] ++ m ++ [0x0A].
Definition t_path opts (p : list N) : list N := t_color opts Blue [] ++ p ++ t_color opts Reset [] ++ [0x0A].
Definition t_empty opts : list N := str "     " ++ column opts ++ [0x0A].
Definition t_line_color opts kind : list N :=
  match kind with Primary => t_color opts Red [Bold] | Secondary => t_color opts Yellow [] end.
Definition t_annotation e c inp opts kind l end_ (m : list N) : outcome (list N) :=
  match get_annotation (unit_encoding e) c inp l end_ with
  | None => Hangs
  | Some line =>
    let before := units_in inp (an_before line) in
    let annotated := units_in inp (an_annotated line) in
    let after := units_in inp (an_after line) in
    let eof := an_truncated line && negb (an_newline line) in
    let wb := display_width (lexemes_of e) before opts in
    let wa := display_width (lexemes_of e) annotated opts in
    if (2 ^ 32 <=? wb) || (2 ^ 32 <=? wa) then Hangs
    else Done (
      t_color opts Blue [] ++ (format_dec 4 (lo_line_nr l) ++ str " ") ++ t_color opts Reset [] ++ column opts ++ [0x20]
      ++ t_lexeme (lexemes_of e) before opts ++ t_line_color opts kind
      ++ t_lexeme (lexemes_of e) annotated (reset opts visualize_use_color) ++ t_color opts Reset []
      ++ t_lexeme (lexemes_of e) after opts ++ [0x0A]
      ++ str "     " ++ column opts ++ [0x20] ++ concat (repeat (str " ") (N.to_nat wb)) ++ t_line_color opts kind
      ++ concat (repeat (underline kind) (N.to_nat wa)) ++ (if (wa =? 0) || eof then underline kind else [])
      ++ [0x20] ++ m ++ [0x0A] ++ t_color opts Reset [])
  end.
Definition t_error_message e opts (k : error_kind) : list N :=
  match k with
  | ExpectedLiteral s _ => str "expected '" ++ t_lexeme (lexemes_of e) s opts ++ str "'"
  | ExpectedKeyword s _ => str "expected keyword '" ++ t_lexeme (lexemes_of e) s opts ++ str "'"
  | ExpectedClass n => str "expected " ++ n
  | Generic m _ => m
  end.
Definition range_of (k : error_kind) : range_end :=
  match k with
  | ExpectedLiteral _ i => Size (i + 1) | ExpectedKeyword _ e | Generic _ e => EndAt e | ExpectedClass _ => Size 1
  end.
Definition t_context e inp opts cl loc ctx : outcome (list N) :=
  if negb (lo_line_nr loc =? lo_line_nr cl) then
    omap (fun a => a ++ t_empty opts)
      (t_annotation e (default_counting e) inp opts Secondary cl (EndAt (S ctx)) (str "beginning here"))
  else Done [].
Definition t_error e inp err opts (path : option (list N)) : outcome (list N) :=
  let c := default_counting e in
  bind (located (get_input_location (unit_encoding e) c inp (er_context err) input_anchor)) (fun cl =>
  bind (located (get_input_location (unit_encoding e) c inp (er_position err) (anchor_of cl))) (fun loc =>
  bind (t_context e inp opts cl loc (er_context err)) (fun cx =>
  omap (fun a => t_message opts DError (str "while parsing " ++ er_production err)
                 ++ match path with Some p => t_path opts p | None => [] end ++ t_empty opts ++ cx ++ a)
    (t_annotation e c inp opts Primary loc (range_of (er_kind err))
       (t_error_message e (reset opts visualize_use_color) (er_kind err)))))).

Section Out.
Context {W I : Type} (put : W -> I -> N -> W * I).
Notation plain_or_shared := (plain_or_shared (I := I)).

Lemma message_text o opts kind message m : plain_or_shared opts ->
  (forall o, message o opts = write_str put o m) ->
  write_message put o opts kind message = write_str put o (t_message opts kind m).
Proof.
  intros H Hm. unfold write_message, t_message, t_kind. rewrite Hm.
  destruct kind; rewrite !color_text by exact H; rewrite put_str, !str_app, <- ?app_assoc; reflexivity.
Qed.
Lemma path_text o opts p : write_path put o opts p = write_str put o (t_path opts p).
Proof. unfold write_path, t_path. rewrite !color_text1, put_str, !str_app, <- ?app_assoc. reflexivity. Qed.
Lemma empty_text o opts : write_empty_annotation put o opts = write_str put o (t_empty opts).
Proof. unfold write_empty_annotation, t_empty. rewrite put_str, !str_app, <- ?app_assoc. reflexivity. Qed.
Lemma line_color_text o opts kind : plain_or_shared opts ->
  colorize_underline put o opts kind = write_str put o (t_line_color opts kind).
Proof. intros H. destruct kind; now apply color_text. Qed.
Lemma reset_shared opts : plain_or_shared (reset opts visualize_use_color).
Proof. left. apply reset_color. Qed.

Lemma annotation_text e c inp o opts kind l end_ message m : plain_or_shared opts ->
  (forall o, message o (reset opts visualize_use_color) = write_str put o m) ->
  write_annotation put e c inp o opts kind l end_ message =
  omap (write_str put o) (t_annotation e c inp opts kind l end_ m).
Proof.
  intros H Hm. unfold write_annotation, t_annotation, write_times, write_format.
  destruct (get_annotation _ _ _ _ _) as [line|]; [|reflexivity]. cbv zeta.
  destruct (2 ^ 32 <=? display_width (lexemes_of e) (units_in inp (an_before line)) opts); [reflexivity|]. cbn [bind orb].
  destruct (2 ^ 32 <=? display_width (lexemes_of e) (units_in inp (an_annotated line)) opts); [reflexivity|]. cbn [bind omap].
  f_equal. rewrite Hm, !(line_color_text _ _ _ H), !(lexeme_text put _ _ _ _ H), !(lexeme_text put _ _ _ _ (reset_shared opts)).
  rewrite !color_text1. rewrite !put_str.
  destruct (_ || _); rewrite !str_app, <- ?app_assoc; reflexivity.
Qed.

Lemma error_text e inp o err opts path : plain_or_shared opts ->
  write_error put e inp o err opts path = omap (write_str put o) (t_error e inp err opts path).
Proof.
  intros H. unfold write_error, t_error. cbv zeta.
  destruct (get_input_location _ _ _ _ input_anchor) as [| |cl]; [reflexivity|reflexivity|]. cbn [located bind].
  destruct (get_input_location _ _ _ _ (anchor_of cl)) as [| |loc]; [reflexivity|reflexivity|]. cbn [located bind].
  rewrite (message_text _ _ _ _ (str "while parsing " ++ er_production err) H) by (intros; now rewrite str_app).
  assert (HP : forall o, (match path with Some p => write_path put o opts p | None => o end) =
    write_str put o (match path with Some p => t_path opts p | None => [] end)).
  { intros o'. destruct path; [apply path_text|reflexivity]. }
  rewrite HP, empty_text. set (base := write_str put _ (t_empty opts)).
  assert (HC : (if negb (lo_line_nr loc =? lo_line_nr cl) then
       bind (write_annotation put e (default_counting e) inp base opts Secondary cl (EndAt (S (er_context err)))
               (fun o _ => write_str put o (str "beginning here"))) (fun o =>
       Done (write_empty_annotation put o opts))
     else Done base) = omap (write_str put base) (t_context e inp opts cl loc (er_context err))).
  { unfold t_context. destruct (negb _); [|reflexivity].
    rewrite (annotation_text _ _ _ _ _ _ _ _ _ (str "beginning here") H) by reflexivity.
    destruct (t_annotation _ _ _ _ _ _ _ _); [|reflexivity|reflexivity]. cbn [omap bind]. now rewrite empty_text, str_app. }
  unfold out in *. rewrite HC. destruct (t_context _ _ _ _ _ _) as [cx| |]; [|reflexivity|reflexivity]. cbn [omap bind].
  assert (HA : forall o end_ message, (forall o, message o (reset opts visualize_use_color) =
      write_str put o (t_error_message e (reset opts visualize_use_color) (er_kind err))) ->
    write_annotation put e (default_counting e) inp o opts Primary loc end_ message =
    omap (write_str put o) (t_annotation e (default_counting e) inp opts Primary loc end_
       (t_error_message e (reset opts visualize_use_color) (er_kind err)))).
  { intros o' end_ message Hm. now apply annotation_text. }
  destruct (er_kind err) as [s i|s e'|n|m e']; cbn [range_of]; (rewrite HA;
    [|intros o'; cbn [t_error_message]; rewrite ?(lexeme_text put _ _ _ _ (reset_shared opts)), ?str_app; rewrite <- ?app_assoc; reflexivity]).
  all: destruct (t_annotation _ _ _ _ _ _ _ _); [|reflexivity|reflexivity]; cbn [omap bind]; f_equal; unfold base;
       rewrite !str_app, <- ?app_assoc; reflexivity.
Qed.
End Out.

(** ** Colors are not displayed *)
Lemma D_displayed t t' : D t t' -> displayed false t = t'.
Proof. intros H. rewrite <- (app_nil_r t), H. apply app_nil_r. Qed.
Lemma D_clean s : clean s -> D s s.
Proof. intros H. apply D_chars. apply Forall_forall. intros c Hc ->. now apply H. Qed.
Definition Do (x y : outcome (list N)) : Prop :=
  match x, y with
  | Done a, Done b => D a b
  | Hangs, Hangs => True
  | Asserts, Asserts => True
  | _, _ => False
  end.
Lemma Do_bind x y f g : Do x y -> (forall a b, D a b -> Do (f a) (g b)) -> Do (bind x f) (bind y g).
Proof. destruct x, y; cbn; auto; contradiction. Qed.
Lemma column_reset o : column (reset o visualize_use_color) = column o.
Proof. unfold column. now rewrite reset_unicode. Qed.
Lemma D_column o : D (column o) (column (reset o visualize_use_color)).
Proof. rewrite column_reset. unfold column. destruct (is_set o visualize_use_unicode); now apply D_str. Qed.
Lemma D_line_color o k : D (t_line_color o k) (t_line_color (reset o visualize_use_color) k).
Proof.
  destruct k; unfold t_line_color; rewrite (no_color _ (reset_color o)); apply D_color.
Qed.
Lemma D_color' o h tl : D (t_color o h tl) (t_color (reset o visualize_use_color) h tl).
Proof. rewrite (no_color _ (reset_color o)). apply D_color. Qed.
Lemma D_underline k : D (underline k) (underline k).
Proof. destruct k; now apply D_str. Qed.
Lemma dec_chars k : forall n, Forall (fun c => 0x30 <= c <= 0x39) (dec_digits k n).
Proof.
  induction k as [|k IH]; intros n; [constructor|]. cbn [dec_digits]. apply Forall_app. split; [apply IH|].
  constructor; [|constructor]. pose proof (N.mod_lt n 10 ltac:(lia)). lia.
Qed.
Lemma format_dec_chars w n : Forall (fun c => c = 0x20 \/ 0x30 <= c <= 0x39) (format_dec w n).
Proof.
  unfold format_dec. apply Forall_app. split.
  - induction (w - dec_size n)%nat as [|k IH]; constructor; [now left|exact IH].
  - eapply Forall_impl; [|apply dec_chars]. cbn. auto.
Qed.
Lemma D_dec w n : D (format_dec w n) (format_dec w n).
Proof. apply D_chars. eapply Forall_impl; [|apply format_dec_chars]. cbn. intros. lia. Qed.
Lemma reset_reset o : reset (reset o visualize_use_color) visualize_use_color = reset o visualize_use_color.
Proof. apply reset_plain, reset_color. Qed.
Lemma width_reset e us o : display_width e us (reset o visualize_use_color) = display_width e us o.
Proof. unfold display_width. now rewrite reset_reset. Qed.
Lemma D_lexeme' e us o : D (t_lexeme e us (reset o visualize_use_color)) (t_lexeme e us (reset o visualize_use_color)).
Proof. rewrite <- (reset_reset o) at 2. apply D_lexeme. Qed.

Lemma D_annotation e c inp o k l end_ m m' : D m m' ->
  Do (t_annotation e c inp o k l end_ m) (t_annotation e c inp (reset o visualize_use_color) k l end_ m').
Proof.
  intros Hm. unfold t_annotation. destruct (get_annotation _ _ _ _ _) as [line|]; [|exact I]. cbv zeta.
  rewrite !width_reset. destruct (_ || _); [exact I|]. cbn [Do].
  rewrite (reset_reset o).
  repeat first [apply D_color' | apply D_line_color | apply D_column | apply D_dec | apply D_lexeme' | apply D_lexeme
    | apply D_underline | exact Hm | (apply D_str; reflexivity) | apply D_app ].
  - apply D_repeat. now apply D_str.
  - apply D_repeat, D_underline.
  - destruct (_ || _); [apply D_underline|apply D_nil].
Qed.
Lemma D_error_message e o err : clean_error err -> let o' := reset o visualize_use_color in
  D (t_error_message e o' (er_kind err)) (t_error_message e o' (er_kind err)).
Proof.
  intros (_ & H) o'. unfold t_error_message. destruct (er_kind err).
  1, 2: repeat apply D_app; try (now apply D_str); apply D_lexeme'.
  - apply D_app; [now apply D_str|now apply D_clean].
  - now apply D_clean.
Qed.
Lemma D_error e inp err o path : clean_error err -> match path with Some p => clean p | None => True end ->
  Do (t_error e inp err o path) (t_error e inp err (reset o visualize_use_color) path).
Proof.
  intros Hc Hp. unfold t_error. cbv zeta.
  destruct (get_input_location _ _ _ _ input_anchor) as [| |cl]; [exact I|exact I|]. cbn [located bind].
  destruct (get_input_location _ _ _ _ (anchor_of cl)) as [| |loc]; [exact I|exact I|]. cbn [located bind].
  rewrite reset_reset.
  assert (HE : D (t_empty o) (t_empty (reset o visualize_use_color))).
  { unfold t_empty. apply D_app; [now apply D_str|]. apply D_app; [apply D_column|now apply D_str]. }
  apply Do_bind.
  { unfold t_context. destruct (negb _); [|exact D_nil]. apply Do_bind; [apply D_annotation; now apply D_str|].
    intros a b H. cbn [Do]. now apply D_app. }
  intros cx cx' Hx. apply Do_bind; [apply D_annotation; now apply D_error_message|].
  intros a b H. cbn [Do]. apply D_app; [|apply D_app; [|apply D_app; [exact HE|now apply D_app]]].
  - unfold t_message, t_kind. apply D_app; [apply D_app; [apply D_color'|now apply D_str]|].
    apply D_app; [apply D_color'|]. apply D_app; [|now apply D_str]. apply D_app; [now apply D_str|]. apply D_clean, Hc.
  - destruct path as [p|]; [|apply D_nil]. unfold t_path. apply D_app; [apply D_color'|].
    apply D_app; [now apply D_clean|]. apply D_app; [apply D_color'|now apply D_str].
Qed.

(** ** Outputs *)
Lemma annotation_output_eq e c inp o k l end_ m :
  annotation_output e c inp o k l end_ m = t_annotation e c inp o k l end_ m.
Proof.
  unfold annotation_output, appended_outcome.
  rewrite (annotation_text append_put _ _ _ _ _ _ _ _ _ m (shared_unit o)) by (intros; apply written_str).
  destruct (t_annotation _ _ _ _ _ _ _ _); [|reflexivity|reflexivity]. cbn [omap bind]. now rewrite append_str.
Qed.
Lemma error_output_eq e inp err o path : error_output e inp err o path = t_error e inp err o path.
Proof.
  unfold error_output, appended_outcome. rewrite (error_text append_put _ _ _ _ _ _ (shared_unit o)).
  destruct (t_error _ _ _ _ _); [|reflexivity|reflexivity]. cbn [omap bind]. now rewrite append_str.
Qed.
